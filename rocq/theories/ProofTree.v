(** Lemmas on grove.py (C01-C04). *)
From Coq Require Import ZArith List Bool Lia Arith.
From Verif Require Import Base LemBase ModelJaxext ModelGrove SpecTree.
Import ListNotations.
Open Scope Z_scope.
Ltac Zify.zify_post_hook ::= Z.div_mod_to_equations.

Lemma entry_zget : forall l i, entry l i = zget 0 l i.
Proof. reflexivity. Qed.

Lemma entry_over : forall l i, zlen l <= i -> entry l i = 0.
Proof. intros; apply zget_over; auto. Qed.

Lemma decision_lt : forall split i, decision split i -> i < zlen split.
Proof.
  intros split i [H1 H2]. destruct (Z.lt_ge_cases i (zlen split)); auto.
  now rewrite entry_over in H2 by lia.
Qed.

Lemma decision_dec : forall split i, decision split i \/ ~ decision split i.
Proof.
  intros; unfold decision. destruct (Z.eq_dec (entry split i) 0); [tauto |].
  destruct (Z.le_gt_cases 1 i); [tauto | right; lia].
Qed.

Lemma not_decision_over : forall split i, zlen split <= i -> ~ decision split i.
Proof. intros split i H D. apply decision_lt in D. lia. Qed.

Lemma not_decision_0 : forall split i, 1 <= i -> (~ decision split i <-> entry split i = 0).
Proof. intros; unfold decision. lia. Qed.

(** ** sizes and depths (C04) *)

Lemma round_log2_pow2 : forall k, 0 <= k -> round_log2 (2 ^ k) = k.
Proof.
  intros; unfold round_log2. rewrite Z.log2_pow2 by lia.
  rewrite <- Z.pow_add_r by lia. replace (k + k) with (2 * k) by lia.
  rewrite (proj2 (Z.ltb_lt _ _)); auto. apply Z.pow_lt_mono_r; lia.
Qed.

Lemma tree_depth_pow2 : forall A (l : list A) k,
  0 <= k -> zlen l = 2 ^ k -> tree_depth l = k.
Proof. intros; unfold tree_depth; rewrite H0; now apply round_log2_pow2. Qed.

Lemma zlen_make_tree : forall A k (z : A), 0 <= k -> zlen (make_tree k z) = 2 ^ k.
Proof. intros; unfold make_tree; apply zlen_full. pose proof (pow2_pos k); lia. Qed.

Lemma log2_double : forall i, 1 <= i -> Z.log2 (2 * i) = Z.log2 i + 1.
Proof. intros; rewrite Z.log2_double by lia; lia. Qed.

Lemma log2_double_1 : forall i, 1 <= i -> Z.log2 (2 * i + 1) = Z.log2 i + 1.
Proof. intros. rewrite Z.log2_succ_double by lia. lia. Qed.

Lemma at_depth_pos : forall i k, at_depth i k -> 1 <= i /\ 0 <= k.
Proof. induction 1; lia. Qed.

Lemma at_depth_log2 : forall i k, at_depth i k -> Z.log2 i = k.
Proof.
  induction 1; auto; pose proof (at_depth_pos _ _ H).
  - rewrite log2_double by lia; lia.
  - rewrite log2_double_1 by lia; lia.
Qed.

Lemma at_depth_exists : forall i, 1 <= i -> at_depth i (Z.log2 i).
Proof.
  assert (H : forall n i, 1 <= i <= Z.of_nat n -> at_depth i (Z.log2 i)).
  { induction n; intros i Hi; [lia |].
    destruct (Z.eq_dec i 1); [subst; constructor |].
    pose proof (Z.div_mod i 2). pose proof (Z.mod_pos_bound i 2).
    assert (Hd : at_depth (i / 2) (Z.log2 (i / 2))) by (apply IHn; lia).
    destruct (Z.eq_dec (i mod 2) 0).
    - replace i with (2 * (i / 2)) at 1 by lia.
      replace (Z.log2 i) with (Z.log2 (i / 2) + 1); [now constructor |].
      rewrite <- log2_double by lia. f_equal; lia.
    - replace i with (2 * (i / 2) + 1) at 1 by lia.
      replace (Z.log2 i) with (Z.log2 (i / 2) + 1); [now constructor |].
      rewrite <- log2_double_1 by lia. f_equal; lia. }
  intros i Hi; apply (H (Z.to_nat i)); lia.
Qed.

Lemma tree_depths_loop_length : forall n i k, length (tree_depths_loop n i k) = n.
Proof. induction n; simpl; auto. Qed.

(** loop invariant: at index i >= 1 the variable [depth] is log2 (i-1) + 1 *)
Lemma tree_depths_loop_nth : forall n i k j,
  (j < n)%nat -> 1 <= i ->
  (i = 1 /\ k = 0 \/ 2 <= i /\ k = Z.log2 (i - 1) + 1) ->
  nth j (tree_depths_loop n i k) 0 = Z.log2 (i + Z.of_nat j).
Proof.
  induction n; intros i k j Hj Hi Hk; [lia |].
  set (k' := if i =? 2 ^ k then k + 1 else k).
  assert (Hk' : k' = Z.log2 i + 1).
  { unfold k'. destruct Hk as [[-> ->] | [H2 ->]]; [reflexivity |].
    pose proof (Z.log2_spec (i - 1) ltac:(lia)) as L.
    rewrite <- Z.add_1_r in L. set (m := Z.log2 (i - 1)) in *.
    assert (0 <= m) by apply Z.log2_nonneg.
    destruct (Z.eqb_spec i (2 ^ (m + 1))) as [E | E].
    - rewrite E, Z.log2_pow2; lia.
    - f_equal. symmetry. apply Z.log2_unique; lia. }
  destruct j; simpl; fold k'.
  - rewrite Z.add_0_r. lia.
  - rewrite IHn; [f_equal; lia | lia | lia |]. right. split; [lia |].
    rewrite Hk'. do 2 f_equal. lia.
Qed.

Lemma zget_tree_depths : forall n i, 1 <= i < n -> zget 0 (tree_depths n) i = Z.log2 i.
Proof.
  intros; unfold tree_depths.
  assert (L : zlen (tree_depths_loop (Z.to_nat n) 0 0) = n).
  { unfold zlen; rewrite tree_depths_loop_length; lia. }
  rewrite zget_scatter_set by lia.
  destruct (Z.eqb_spec 0 i); [lia |].
  unfold zget. destruct (Z.to_nat n) eqn:En; [lia |].
  destruct (Z.to_nat i) eqn:Ei; [lia |].
  simpl. rewrite tree_depths_loop_nth; try lia.
  f_equal; lia.
Qed.

Lemma zget_tree_depths_0 : forall n, 1 <= n -> zget 0 (tree_depths n) 0 = 0.
Proof.
  intros; unfold tree_depths. rewrite zget_scatter_set; auto; try lia.
  unfold zlen; rewrite tree_depths_loop_length; lia.
Qed.

Lemma zlen_tree_depths : forall n, 0 <= n -> zlen (tree_depths n) = n.
Proof.
  intros; unfold tree_depths. rewrite zlen_scatter_set.
  unfold zlen; rewrite tree_depths_loop_length; lia.
Qed.

(** ** traversal (C01) *)

Lemma heap_pos : forall d, 1 <= d -> 1 <= heap_size d.
Proof. intros; unfold heap_size. pose proof (pow2_pos (d - 1)); lia. Qed.

Lemma heap_2 : forall d, 1 <= d -> 2 * heap_size d = 2 ^ d.
Proof. intros; unfold heap_size. rewrite (pow2_pred d) by lia. reflexivity. Qed.

Section Traverse.
  Context {zo : zoob}.
  Variables (d : Z) (var split : list Z).
  Hypothesis Hd : 1 <= d <= 64.
  Hypothesis Hvar : zlen var = heap_size d.
  Hypothesis Hsplit : zlen split = heap_size d.

  Let bits := minimal_unsigned_bits (2 * zlen var - 1).

  Lemma index_fits : forall i, 0 <= i < 2 * heap_size d -> wrap bits i = i.
  Proof.
    intros. apply wrap_small. split; [lia |].
    assert (2 * zlen var - 1 < 2 ^ bits).
    { apply minimal_unsigned_bits_fits. rewrite Hvar, heap_2 by lia.
      assert (2 ^ d <= 2 ^ 64) by (apply Z.pow_le_mono_r; lia).
      pose proof (heap_pos d); pose proof (heap_2 d); lia. }
    lia.
  Qed.

  Lemma traverse_found : forall n x i,
    iterate n (traverse_loop bits x var split) (true, i) = (true, i).
  Proof. induction n; intros; simpl; auto. Qed.

  Lemma traverse_route : forall n x i,
    1 <= i < 2 * heap_size d -> heap_size d <= i * 2 ^ Z.of_nat n ->
    (i + 1) * 2 ^ Z.of_nat n <= 2 * heap_size d ->
    route (gather zmode x) var split i
      (snd (iterate n (traverse_loop bits x var split) (false, i))).
  Proof.
    induction n; intros x i Hi H1 H2.
    - simpl. apply route_stop. apply not_decision_over. rewrite Hsplit.
      change (2 ^ Z.of_nat 0) with 1 in H1. lia.
    - rewrite Nat2Z.inj_succ, Z.pow_succ_r in H1, H2 by lia.
      assert (Hp : 1 <= 2 ^ Z.of_nat n) by (pose proof (pow2_pos (Z.of_nat n)); lia).
      assert (Hi' : i < heap_size d) by nia.
      cbn [iterate traverse_loop].
      rewrite !(gather_in _ _ 0) with (i := i) by lia.
      change (zget 0 var i) with (entry var i).
      change (zget 0 split i) with (entry split i). rewrite shiftl_1.
      cbn [orb]. destruct (Z.eqb_spec (entry split i) 0) as [E | E].
      + rewrite traverse_found. simpl. apply route_stop. apply not_decision_0; lia.
      + assert (D : decision split i) by (split; lia).
        rewrite (index_fits (2 * i)) by lia.
        destruct (Z.leb_spec (entry split i) (gather zmode x (entry var i))) as [C | C];
          cbn [b2z].
        * rewrite index_fits by lia. apply route_right; auto. apply IHn; lia.
        * rewrite Z.add_0_r, index_fits by lia. apply route_left; auto. apply IHn; lia.
  Qed.

  Lemma traverse_tree_route : forall x,
    route (gather zmode x) var split 1 (traverse_tree x var split).
  Proof.
    intros. unfold traverse_tree. fold bits.
    rewrite (tree_depth_pow2 _ var (d - 1)) by (auto; lia).
    apply traverse_route; rewrite ?Z2Nat.id by lia; fold (heap_size d);
      pose proof (heap_pos d); lia.
  Qed.
End Traverse.

Lemma route_det : forall x var split i j j',
  route x var split i j -> route x var split i j' -> j = j'.
Proof.
  intros x var split i j j' H; revert j'.
  induction H; intros j' H'; inversion H'; subst; auto; try tauto; try lia.
Qed.

Lemma traverse_tree_spec : forall {zo : zoob} d x var split j,
  1 <= d <= 64 -> zlen var = heap_size d -> zlen split = heap_size d ->
  (traverse_tree x var split = j <-> route (gather zmode x) var split 1 j).
Proof.
  intros zo d x var split j Hd Hv Hs.
  pose proof (traverse_tree_route d var split Hd Hv Hs x) as R. split.
  - now intros <-.
  - intros R'. exact (route_det _ _ _ _ _ _ R R').
Qed.

Lemma decode_eval : forall V (dv : V) d leaf var split x levels i j,
  1 <= i -> zlen split = heap_size d -> heap_size d <= i * 2 ^ Z.of_nat levels ->
  route x var split i j ->
  dt_eval (decode dv leaf var split levels i) x = zget dv leaf j.
Proof.
  intros V dv d leaf var split x. induction levels; intros i j Hi Hs Hl R.
  - change (2 ^ Z.of_nat 0) with 1 in Hl. inversion R; subst; auto;
      apply decision_lt in H; lia.
  - rewrite Nat2Z.inj_succ, Z.pow_succ_r in Hl by lia.
    pose proof (pow2_pos (Z.of_nat levels)) as Hp.
    cbn [decode]. destruct (Z.eqb_spec (entry split i) 0) as [E | E].
    + inversion R; subst; auto; destruct H; tauto.
    + inversion R; subst; cbn [dt_eval].
      * exfalso. apply H. split; auto.
      * rewrite (proj2 (Z.ltb_lt _ _)) by auto. apply IHlevels; auto; nia.
      * rewrite (proj2 (Z.ltb_ge _ _)) by auto. apply IHlevels; auto; nia.
Qed.

(** ** leaf mask (C02) *)

Lemma reachable_pos : forall split i, reachable split i -> 1 <= i.
Proof. induction 1; lia. Qed.

Lemma reachable_lt : forall split i,
  1 <= zlen split -> reachable split i -> i < 2 * zlen split.
Proof.
  intros split i Hz H; induction H; [lia | |]; apply decision_lt in H0; lia.
Qed.

Lemma reachable_parent : forall split i,
  2 <= i -> reachable split i -> reachable split (i / 2) /\ decision split (i / 2).
Proof.
  intros split i Hi H; inversion H; subst; [lia | |].
  - replace (2 * i0 / 2) with i0; auto. rewrite Z.mul_comm, Z.div_mul; lia.
  - replace ((2 * i0 + 1) / 2) with i0; auto.
    rewrite Z.mul_comm, Z.div_add_l by lia. simpl. lia.
Qed.

Lemma reachable_child : forall split i,
  2 <= i -> reachable split (i / 2) -> decision split (i / 2) -> reachable split i.
Proof.
  intros split i Hi H D. pose proof (Z.div_mod i 2). pose proof (Z.mod_pos_bound i 2).
  destruct (Z.eq_dec (i mod 2) 0).
  - replace i with (2 * (i / 2)) by lia. now constructor.
  - replace i with (2 * (i / 2) + 1) by lia. now constructor.
Qed.

Lemma no_stray_local : forall split,
  no_stray split <-> (forall i, 2 <= i -> decision split i -> decision split (i / 2)).
Proof.
  intro sp. split.
  - intros H i Hi D. apply H in D. now apply reachable_parent in D.
  - intros H.
    assert (K : forall n i, 1 <= i <= Z.of_nat n -> decision sp i -> reachable sp i).
    { induction n; intros i Hi D; [lia |].
      destruct (Z.eq_dec i 1); [subst; constructor |].
      assert (Dp : decision sp (i / 2)) by (apply H; auto; lia).
      apply reachable_child; auto; try lia. apply IHn; auto.
      pose proof (Z.div_mod i 2). pose proof (Z.mod_pos_bound i 2). lia. }
    intros i D. apply (K (Z.to_nat i)); auto. destruct D. lia.
Qed.

Lemma route_leaf : forall x var split i j,
  route x var split i j -> reachable split i -> leaf_node split j.
Proof.
  intros x var split i j R; induction R; intros.
  - split; auto.
  - apply IHR. now constructor.
  - apply IHR. now constructor.
Qed.

Section Masks.
  Context {zo : zoob}.

  Lemma zlen_is_actual_leaf : forall split b,
    zlen (is_actual_leaf split b) = if b : bool then 2 * zlen split else zlen split.
  Proof.
    intros; unfold is_actual_leaf. rewrite zlen_map2, zlen_scatter_set, !zlen_map.
    pose proof (zlen_nonneg _ split).
    destruct b; rewrite zlen_arange by lia; rewrite ?zlen_app, ?zlen_repeat, ?zlen_map; auto.
    - rewrite map_length. unfold zlen in *. lia.
    - lia.
  Qed.

  Lemma zget_is_actual_leaf : forall split b i,
    0 <= i < zlen (is_actual_leaf split b) ->
    zget false (is_actual_leaf split b) i =
      (entry split i =? 0) && ((i =? 1) || negb (entry split (i / 2) =? 0)).
  Proof.
    intros split b i Hi. rewrite zlen_is_actual_leaf in Hi.
    pose proof (zlen_nonneg _ split) as Hn.
    unfold is_actual_leaf.
    set (isl := if b then _ else _). set (size := if b then _ else _).
    assert (Hsz : zlen isl = size /\ 0 <= i < size).
    { unfold isl, size; destruct b; rewrite ?zlen_app, ?zlen_repeat, ?zlen_map; auto.
      rewrite map_length. split; [unfold zlen in *; lia | lia]. }
    assert (Hpar : 0 <= i / 2 < zlen split).
    { pose proof (Z.div_mod i 2). pose proof (Z.mod_pos_bound i 2). destruct b; lia. }
    rewrite (zget_map2 _ _ _ _ _ false false).
    2: lia.
    2: { rewrite zlen_scatter_set, !zlen_map, zlen_arange; lia. }
    f_equal.
    - unfold isl. destruct b.
      + destruct (Z.lt_ge_cases i (zlen split)).
        * rewrite zget_app_l by (rewrite zlen_map; lia).
          rewrite (zget_map _ _ _ 0) by lia. reflexivity.
        * rewrite zget_app_r by (rewrite zlen_map; lia).
          rewrite entry_over by lia. rewrite zlen_map, map_length.
          replace (repeat true (length split)) with (full (zlen split) true)
            by (unfold full, zlen; now rewrite Nat2Z.id).
          rewrite zget_full by lia. reflexivity.
      + rewrite (zget_map _ _ _ 0) by lia. reflexivity.
    - assert (E : zget false (map (fun i0 => negb (gather zmode split i0 =? 0))
                  (map (fun i0 => Z.shiftr i0 1) (arange size))) i
                  = negb (entry split (i / 2) =? 0)).
      { rewrite (zget_map _ _ _ 0) by (rewrite zlen_map, zlen_arange; lia).
        rewrite (zget_map _ _ _ 0) by (rewrite zlen_arange; lia).
        rewrite zget_arange by lia. rewrite shiftr_1.
        rewrite (gather_in _ _ 0) by lia. reflexivity. }
      destruct (Z.lt_ge_cases 1 size).
      + rewrite zget_scatter_set by (rewrite ?zlen_map, ?zlen_arange; lia).
        rewrite E, (Z.eqb_sym 1 i). now destruct (i =? 1).
      + rewrite scatter_set_over by (rewrite ?zlen_map, ?zlen_arange; lia).
        rewrite E. destruct (Z.eqb_spec i 1); auto; lia.
  Qed.

  Lemma is_actual_leaf_spec : forall split b i,
    no_stray split -> 0 <= i < zlen (is_actual_leaf split b) ->
    (zget false (is_actual_leaf split b) i = true <-> leaf_node split i).
  Proof.
    intros split b i W Hi. rewrite zget_is_actual_leaf by auto.
    rewrite andb_true_iff, orb_true_iff, negb_true_iff, !Z.eqb_eq, Z.eqb_neq.
    pose proof (Z.div_mod i 2). pose proof (Z.mod_pos_bound i 2).
    split.
    - intros [H1 H2]. split; [| unfold decision; tauto].
      destruct H2 as [-> | H2]; [constructor |].
      assert (i <> 0). { intros ->. apply H2. exact H1. }
      destruct (Z.eq_dec i 1); [subst; constructor |].
      assert (D : decision split (i / 2)) by (split; auto; lia).
      apply reachable_child; auto; lia.
    - intros [R D]. pose proof (reachable_pos _ _ R).
      split; [apply not_decision_0 in D; auto |].
      destruct (Z.eq_dec i 1); [auto | right].
      apply reachable_parent in R; [destruct R as [_ [_ ?]]; auto | lia].
  Qed.

  (** ** leaf-parent mask (C03) *)

  Lemma zlen_is_leaves_parent : forall split,
    zlen (is_leaves_parent split) = zlen split.
  Proof.
    intros; unfold is_leaves_parent. pose proof (zlen_nonneg _ split).
    rewrite !zlen_map2, !zlen_map, zlen_arange by lia. lia.
  Qed.

  Lemma zget_is_leaves_parent : forall d split i,
    1 <= d <= 64 -> zlen split = heap_size d -> 0 <= i < zlen split ->
    zget false (is_leaves_parent split) i =
      negb (entry split i =? 0) && (entry split (2 * i) =? 0) && (entry split (2 * i + 1) =? 0).
  Proof.
    intros d split i Hd Hs Hi. unfold is_leaves_parent.
    set (bits := minimal_unsigned_bits _).
    assert (W : forall k, 0 <= k < 2 * heap_size d -> wrap bits k = k).
    { intros. apply (index_fits d split Hd Hs k). auto. }
    rewrite !(zget_map2 _ _ _ _ _ false false);
      rewrite ?zlen_map2, ?zlen_map, ?zlen_arange by lia; try lia.
    rewrite !(zget_map _ _ _ 0) by (rewrite ?zlen_map, ?zlen_arange; lia).
    rewrite zget_arange, shiftl_1 by lia.
    rewrite (W (2 * i)) by lia. rewrite W by lia.
    rewrite !gather_fill_zget by lia. reflexivity.
  Qed.

  Lemma is_leaves_parent_spec : forall d split i,
    1 <= d <= 64 -> zlen split = heap_size d -> 0 <= i < zlen split ->
    (zget false (is_leaves_parent split) i = true <->
     decision split i /\ ~ decision split (2 * i) /\ ~ decision split (2 * i + 1)).
  Proof.
    intros d split i Hd Hs Hi. rewrite (zget_is_leaves_parent d) by auto.
    rewrite !andb_true_iff, negb_true_iff, !Z.eqb_eq, Z.eqb_neq.
    unfold decision. destruct (Z.eq_dec i 0); [subst; simpl; tauto |]. lia.
  Qed.

  Lemma leaves_parent_exists : forall split,
    decision split 1 ->
    exists i, reachable split i /\ decision split i /\
      ~ decision split (2 * i) /\ ~ decision split (2 * i + 1).
  Proof.
    intros split D1.
    assert (K : forall n i, zlen split - i <= Z.of_nat n -> reachable split i ->
      decision split i -> exists i, reachable split i /\ decision split i /\
      ~ decision split (2 * i) /\ ~ decision split (2 * i + 1)).
    { induction n; intros i Hn R D.
      - apply decision_lt in D. lia.
      - pose proof (reachable_pos _ _ R).
        destruct (decision_dec split (2 * i)).
        + apply (IHn (2 * i)); auto; [lia | now constructor].
        + destruct (decision_dec split (2 * i + 1)).
          * apply (IHn (2 * i + 1)); auto; [lia | now constructor].
          * eauto. }
    apply (K (Z.to_nat (zlen split)) 1); auto; [| constructor].
    pose proof (zlen_nonneg _ split). lia.
  Qed.
End Masks.

(** ** evaluation of forests (C01) *)

Lemma traverse_bounds : forall {zo : zoob} d x var split,
  1 <= d <= 64 -> zlen var = heap_size d -> zlen split = heap_size d ->
  1 <= traverse_tree x var split < 2 ^ d.
Proof.
  intros zo d x var sp Hd Hv Hs.
  pose proof (traverse_tree_route d var sp Hd Hv Hs x) as R.
  apply route_leaf in R; [| constructor]. destruct R as [R _].
  pose proof (reachable_pos _ _ R). pose proof (heap_pos d ltac:(lia)). pose proof (heap_2 d ltac:(lia)).
  apply reachable_lt in R; lia.
Qed.

Section Eval.
  Context {fo : fops} {zo : zoob} {foo : foob fo}.

  Lemma eval_tree : forall d t x,
    1 <= d <= 64 -> tree_arrays d t ->
    gather fmode (fst (fst t)) (traverse_tree x (snd (fst t)) (snd t)) =
    dt_eval (tree_of f0 d t) (gather zmode x).
  Proof.
    intros d t x Hd (Hl & Hv & Hs). unfold tree_of.
    pose proof (traverse_bounds d x _ _ Hd Hv Hs).
    rewrite (decode_eval _ _ d) with (j := traverse_tree x (snd (fst t)) (snd t)); auto.
    - apply gather_in. lia.
    - lia.
    - rewrite Z2Nat.id by lia. unfold heap_size. lia.
    - now apply (traverse_tree_route d).
  Qed.

  Lemma evaluate_forest_nosum_spec : forall d X trees,
    1 <= d <= 64 -> Forall (tree_arrays d) trees ->
    evaluate_forest_nosum X trees =
    map (fun t => map (fun x => dt_eval (tree_of f0 d t) (gather zmode x)) X) trees.
  Proof.
    intros d X trees Hd H. unfold evaluate_forest_nosum, traverse_forest.
    rewrite map_map. induction H; simpl; auto. f_equal; auto.
    rewrite map_map. apply map_ext. intros; now apply eval_tree.
  Qed.

  Lemma sum_rows_map : forall A B (g : A -> B -> F) (X : list B) (ts : list A) acc,
    fold_left (map2 fadd) (map (fun t => map (g t) X) ts) (map acc X) =
    map (fun x => fold_left fadd (map (fun t => g t x) ts) (acc x)) X.
  Proof.
    intros A B g X ts; induction ts; intros; cbn [map fold_left]; auto.
    rewrite map2_map_map. apply (IHts (fun x => fadd (acc x) (g a x))).
  Qed.

  Lemma evaluate_forest_spec : forall d X trees,
    1 <= d <= 64 -> Forall (tree_arrays d) trees ->
    evaluate_forest X trees =
    map (fun x => fold_left fadd
           (map (fun t => dt_eval (tree_of f0 d t) (gather zmode x)) trees) f0) X.
  Proof.
    intros d X trees Hd H. unfold evaluate_forest, sum_rows.
    rewrite (evaluate_forest_nosum_spec d) by auto.
    replace (repeat f0 (length X)) with (map (fun _ : list Z => f0) X).
    2: { induction X; simpl; auto; f_equal; auto. }
    apply sum_rows_map.
  Qed.
End Eval.
