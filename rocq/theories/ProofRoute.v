(** How routes change when a leaf is grown or a decision node is pruned. *)
From Coq Require Import ZArith List Bool Lia.
From Verif Require Import Base LemBase ModelJaxext ModelGrove ModelStep SpecTree
  SpecRange ProofTree ProofRange.
Import ListNotations.
Open Scope Z_scope.
Ltac Zify.zify_post_hook ::= Z.div_mod_to_equations.

(** two split arrays with the same entries at the nodes *)
Definition same_nodes (sp sp' : list Z) : Prop := forall i, 1 <= i -> entry sp' i = entry sp i.

Lemma same_nodes_decision : forall sp sp' i, same_nodes sp sp' ->
  (decision sp' i <-> decision sp i).
Proof.
  intros sp sp' i H. unfold decision. split; intros [H1 H2]; split; auto; rewrite H in *; auto.
Qed.

Lemma route_ext : forall x var var' sp sp' i j,
  same_nodes sp sp' ->
  (forall i, decision sp i -> entry var' i = entry var i) ->
  route x var sp i j -> route x var' sp' i j.
Proof.
  intros x var var' sp sp' i j Hs Hv R. induction R.
  - apply route_stop. now rewrite (same_nodes_decision sp).
  - apply route_left; auto; [now apply (same_nodes_decision sp) |].
    rewrite Hv, Hs; auto. apply H.
  - apply route_right; auto; [now apply (same_nodes_decision sp) |].
    rewrite Hv, Hs; auto. apply H.
Qed.

(** [sp'] is [sp] with the entry of node [n] replaced by [s] *)
Definition set_node (sp sp' : list Z) (n s : Z) : Prop :=
  forall i, 1 <= i -> entry sp' i = if i =? n then s else entry sp i.

Lemma set_node_decision : forall sp sp' n s i, set_node sp sp' n s -> i <> n ->
  (decision sp' i <-> decision sp i).
Proof.
  intros sp sp' n s i H Hi. unfold decision. split; intros [H1 H2]; split; auto;
  rewrite H in * by auto; destruct (Z.eqb_spec i n); auto; lia.
Qed.

Lemma route_grow : forall x var var' sp sp' l v s i j,
  1 <= l -> set_node sp sp' l s -> s <> 0 ->
  (forall i, decision sp i -> entry var' i = entry var i) -> entry var' l = v ->
  ~ decision sp l -> ~ decision sp (2 * l) -> ~ decision sp (2 * l + 1) ->
  route x var sp i j ->
  route x var' sp' i (if j =? l then 2 * l + b2z (s <=? x v) else j).
Proof.
  intros x var var' sp sp' l v s i j Hl Hs Hs0 Hv Hvl D0 D1 D2 R.
  induction R as [i N | i j D L R IH | i j D L R IH].
  - destruct (Z.eqb_spec i l) as [-> | E].
    + assert (Dl : decision sp' l).
      { split; auto. rewrite Hs by auto. now rewrite Z.eqb_refl. }
      assert (El : entry sp' l = s) by (rewrite Hs by auto; now rewrite Z.eqb_refl).
      destruct (Z.leb_spec s (x v)); cbn [b2z].
      * apply route_right; auto; [rewrite Hvl, El; auto |].
        apply route_stop. rewrite set_node_decision by (eauto; lia). auto.
      * apply route_left; auto; [rewrite Hvl, El; auto |]. rewrite Z.add_0_r.
        apply route_stop. rewrite set_node_decision by (eauto; lia). auto.
    + apply route_stop. rewrite set_node_decision by eauto. auto.
  - assert (i <> l) by (intros ->; auto).
    apply route_left; auto; [now apply (set_node_decision sp sp' l s) |].
    rewrite Hv by auto. rewrite Hs by apply D. destruct (Z.eqb_spec i l); auto; lia.
  - assert (i <> l) by (intros ->; auto).
    apply route_right; auto; [now apply (set_node_decision sp sp' l s) |].
    rewrite Hv by auto. rewrite Hs by apply D. destruct (Z.eqb_spec i l); auto; lia.
Qed.

Section Traverse.
  Context {zo : zoob}.
  Variable d : Z.
  Hypothesis Hd : 1 <= d <= 64.

  Lemma traverse_ext : forall x var var' sp sp',
    zlen var = heap_size d -> zlen sp = heap_size d ->
    zlen var' = heap_size d -> zlen sp' = heap_size d ->
    same_nodes sp sp' ->
    (forall i, decision sp i -> entry var' i = entry var i) ->
    traverse_tree x var' sp' = traverse_tree x var sp.
  Proof.
    intros x var var' sp sp' H1 H2 H3 H4 Hs Hv.
    apply (traverse_tree_spec d); auto. eapply route_ext; eauto.
    now apply (traverse_tree_route d).
  Qed.

  Lemma traverse_grow : forall x var var' sp sp' l v s,
    zlen var = heap_size d -> zlen sp = heap_size d ->
    zlen var' = heap_size d -> zlen sp' = heap_size d ->
    1 <= l -> set_node sp sp' l s -> s <> 0 ->
    (forall i, decision sp i -> entry var' i = entry var i) -> entry var' l = v ->
    ~ decision sp l -> ~ decision sp (2 * l) -> ~ decision sp (2 * l + 1) ->
    traverse_tree x var' sp' =
      if traverse_tree x var sp =? l then 2 * l + b2z (s <=? gather zmode x v)
      else traverse_tree x var sp.
  Proof.
    intros. apply (traverse_tree_spec d); auto. eapply route_grow; eauto.
    now apply (traverse_tree_route d).
  Qed.

  Lemma traverse_leaf : forall x var sp,
    zlen var = heap_size d -> zlen sp = heap_size d ->
    leaf_node sp (traverse_tree x var sp).
  Proof.
    intros. apply (route_leaf (gather zmode x) var sp 1); [| constructor].
    now apply (traverse_tree_route d).
  Qed.

  Lemma traverse_prune : forall x var var' sp sp' n,
    zlen var = heap_size d -> zlen sp = heap_size d ->
    zlen var' = heap_size d -> zlen sp' = heap_size d ->
    1 <= n -> set_node sp sp' n 0 ->
    (forall i, decision sp i -> entry var' i = entry var i) ->
    decision sp n -> ~ decision sp (2 * n) -> ~ decision sp (2 * n + 1) ->
    traverse_tree x var' sp' =
      if (traverse_tree x var sp =? 2 * n) || (traverse_tree x var sp =? 2 * n + 1) then n
      else traverse_tree x var sp.
  Proof.
    intros x var var' sp sp' n H1 H2 H3 H4 Hn Hs Hv D0 D1 D2.
    assert (N : ~ decision sp' n).
    { intros [_ E]. rewrite Hs, Z.eqb_refl in E; lia. }
    rewrite (traverse_grow x var' var sp' sp n (entry var n) (entry sp n)); auto.
    - assert (L : leaf_node sp' (traverse_tree x var' sp')) by (apply traverse_leaf; auto).
      set (j := traverse_tree x var' sp') in *.
      destruct (Z.eqb_spec j n) as [E | E].
      + destruct (entry sp n <=? _); cbn [b2z].
        * rewrite Z.eqb_refl, orb_true_r. auto.
        * rewrite Z.add_0_r, Z.eqb_refl. auto.
      + assert (j <> 2 * n /\ j <> 2 * n + 1).
        { split; intros Ej; destruct L as [R _]; rewrite Ej in R;
          apply reachable_parent in R; try lia; destruct R as [_ R].
          - replace (2 * n / 2) with n in R by lia. auto.
          - replace ((2 * n + 1) / 2) with n in R by lia. auto. }
        destruct (Z.eqb_spec j (2 * n)), (Z.eqb_spec j (2 * n + 1)); cbn [orb]; auto; lia.
    - intros i Hi. rewrite Hs by auto. destruct (Z.eqb_spec i n); subst; auto.
    - apply D0.
    - intros i Di. symmetry. apply Hv.
      destruct (Z.eq_dec i n) as [-> | E]; auto. now apply (set_node_decision sp sp' n 0).
    - rewrite (set_node_decision sp sp' n 0) by (auto; lia). auto.
    - rewrite (set_node_decision sp sp' n 0) by (auto; lia). auto.
  Qed.
End Traverse.

(** ** the nodes visited by a point *)

Inductive visits (x : Z -> Z) (var sp : list Z) : Z -> Prop :=
| visit_root : visits x var sp 1
| visit_left i : visits x var sp i -> decision sp i -> x (entry var i) < entry sp i ->
    visits x var sp (2 * i)
| visit_right i : visits x var sp i -> decision sp i -> entry sp i <= x (entry var i) ->
    visits x var sp (2 * i + 1).

Lemma route_visits : forall x var sp i j,
  route x var sp i j -> visits x var sp i -> visits x var sp j.
Proof.
  intros x var sp i j R. induction R; intros V; auto; apply IHR.
  - now apply visit_left.
  - now apply visit_right.
Qed.

Lemma visits_pos : forall x var sp i, visits x var sp i -> 1 <= i.
Proof. intros x var sp i V. induction V; lia. Qed.

(** a point is within the bounds of each node it visits *)
Lemma visits_bounds : forall x var sp v M i,
  0 <= x v <= M -> visits x var sp i ->
  let b := bounds var sp v M (Z.to_pos i) in fst b <= x v < snd b.
Proof.
  intros x var sp v M i Hx V. induction V as [| i V IH D L | i V IH D L]; cbv zeta in *.
  - cbn. lia.
  - pose proof (visits_pos _ _ _ _ V). destruct i as [| q | q]; try lia.
    change (2 * Z.pos q) with (Z.pos (xO q)). rewrite Pos2Z.id in *. cbn [bounds].
    destruct (bounds var sp v M q) as [l r]. cbn [fst snd] in *.
    destruct (Z.eqb_spec (entry var (Z.pos q)) v) as [<- | E]; lia.
  - pose proof (visits_pos _ _ _ _ V). destruct i as [| q | q]; try lia.
    change (2 * Z.pos q + 1) with (Z.pos (xI q)). rewrite Pos2Z.id in *. cbn [bounds].
    destruct (bounds var sp v M q) as [l r]. cbn [fst snd] in *.
    destruct (Z.eqb_spec (entry var (Z.pos q)) v) as [<- | E]; lia.
Qed.

(** bounds depend only on the rules above *)
Lemma bounds_ext : forall var var' sp sp' v M i,
  (forall a b, 1 <= a -> descends a b (Zpos i) ->
     entry var' a = entry var a /\ entry sp' a = entry sp a) ->
  bounds var' sp' v M i = bounds var sp v M i.
Proof.
  intros var var' sp sp' v M. induction i as [q IH | q IH |]; intros H; auto; cbn [bounds].
  - rewrite IH.
    + destruct (H (Z.pos q) true ltac:(lia) (desc_xI0 q)) as [-> ->]. reflexivity.
    + intros a b Ha Hb. apply (H a b Ha). now apply desc_xI.
  - rewrite IH.
    + destruct (H (Z.pos q) false ltac:(lia) (desc_xO0 q)) as [-> ->]. reflexivity.
    + intros a b Ha Hb. apply (H a b Ha). now apply desc_xO.
Qed.

Lemma available_ext : forall var var' sp sp' ms i v s,
  (forall a b, 1 <= a -> descends a b i ->
     entry var' a = entry var a /\ entry sp' a = entry sp a) ->
  available var sp ms i v s -> available var' sp' ms i v s.
Proof.
  intros var var' sp sp' ms i v s H [A1 A2]. split; auto.
  intros a b Ha Hb. destruct (H a b Ha Hb) as [-> ->]. exact (A2 a b Ha Hb).
Qed.

(** ancestors of a reachable node are decision nodes *)
Lemma reachable_above : forall sp i a b,
  reachable sp i -> 1 <= a -> descends a b i -> decision sp a.
Proof.
  intros sp i a b R. revert a b. induction R as [| i R IH D | i R IH D]; intros a b Ha Hd.
  - now apply descends_root in Hd.
  - pose proof (reachable_pos _ _ R). apply descends_left in Hd; auto.
    destruct Hd as [[-> _] | Hd]; eauto.
  - pose proof (reachable_pos _ _ R). apply descends_right in Hd; auto.
    destruct Hd as [[-> _] | Hd]; eauto.
Qed.

Lemma descends_gt : forall a b i, 1 <= a -> descends a b i -> a < i.
Proof. intros a b i Ha H. induction H; lia. Qed.
