(** One MCMC step preserves the invariant of each tree. *)
From Coq Require Import ZArith List Bool Lia.
From Verif Require Import Base LemBase ModelJaxext ModelGrove ModelStep SpecTree
  SpecSampling SpecRange Laws ProofTree ProofSampling ProofCategorical ProofRange
  ProofAggregate ProofRoute ProofMoves.
Import ListNotations.
Open Scope Z_scope.
Ltac Zify.zify_post_hook ::= Z.div_mod_to_equations.

Lemma entry_scatter : forall l i v j, 0 <= i < zlen l -> 0 <= j ->
  entry (scatter_set l i v) j = if j =? i then v else entry l j.
Proof.
  intros. change (entry (scatter_set l i v) j) with (zget 0 (scatter_set l i v) j).
  rewrite zget_scatter_set by auto. rewrite Z.eqb_sym. reflexivity.
Qed.

Lemma scatter_same : forall l i, entry l i = 0 -> 0 <= i < zlen l -> forall v,
  scatter_set (scatter_set l i v) i 0 = l.
Proof.
  intros l i E Hi v. apply list_ext with (d := 0).
  - now rewrite !zlen_scatter_set.
  - intros j Hj. rewrite !zlen_scatter_set in Hj.
    rewrite zget_scatter_set by (rewrite ?zlen_scatter_set; lia).
    rewrite zget_scatter_set by lia.
    destruct (Z.eqb_spec i j); subst; auto.
Qed.

(** clearing the lowest bit of an index *)
Lemma land_mask : forall bits li, 1 <= bits -> 0 <= li < 2 ^ bits ->
  Z.land li (wrap bits (Z.lnot 1)) = 2 * (li / 2).
Proof.
  intros bits li Hb Hl. unfold wrap.
  rewrite <- Z.land_ones by lia.
  rewrite Z.land_assoc, (Z.land_comm (Z.land li _)), Z.land_assoc.
  rewrite (Z.land_comm (Z.ones bits)), Z.land_ones by lia. rewrite Z.mod_small by lia.
  rewrite <- Z.ldiff_land. change 1 with (Z.ones 1) at 1.
  rewrite Z.ldiff_ones_r by lia. rewrite Z.shiftl_mul_pow2, Z.shiftr_div_pow2 by lia.
  change (2 ^ 1) with 2. lia.
Qed.

(** ** collapsing two siblings *)

Definition collapse (n li : Z) : Z := if (li =? 2 * n) || (li =? 2 * n + 1) then n else li.

Lemma occ_collapse_node : forall n l, 1 <= n ->
  occ (map (collapse n) l) n = occ l (2 * n) + occ l (2 * n + 1) + occ l n.
Proof.
  intros n l Hn. induction l; cbn [map]; [now rewrite !occ_nil |].
  rewrite !occ_cons, IHl. unfold collapse.
  destruct (Z.eqb_spec a (2 * n)), (Z.eqb_spec a (2 * n + 1)); cbn [orb];
    destruct (Z.eqb_spec n n), (Z.eqb_spec a n); cbn [b2z]; lia.
Qed.

Lemma occ_collapse_other : forall n l i, i <> n -> i <> 2 * n -> i <> 2 * n + 1 ->
  occ (map (collapse n) l) i = occ l i.
Proof.
  intros n l i H1 H2 H3. induction l; cbn [map]; auto.
  rewrite !occ_cons, IHl. unfold collapse.
  destruct (Z.eqb_spec a (2 * n)), (Z.eqb_spec a (2 * n + 1)); cbn [orb];
    destruct (Z.eqb_spec n i), (Z.eqb_spec a i); cbn [b2z]; lia.
Qed.

Lemma collapse_grow : forall n li (c : bool), li <> 2 * n -> li <> 2 * n + 1 -> 1 <= n ->
  collapse n (if li =? n then 2 * n + b2z c else li) = li.
Proof.
  intros n li c H1 H2 Hn. unfold collapse.
  destruct (Z.eqb_spec li n) as [-> | E].
  - destruct c; cbn [b2z].
    + rewrite Z.eqb_refl, orb_true_r. auto.
    + rewrite Z.add_0_r, Z.eqb_refl. auto.
  - rewrite (proj2 (Z.eqb_neq _ _) H1), (proj2 (Z.eqb_neq _ _) H2). auto.
Qed.

Section Step.
  Context {fo : fops} {zo : zoob} {foo : foob fo}.

  (** ** what the acceptance stage returns *)

  Lemma zlen_sum_resid : forall r idx size bs, 0 <= size ->
    zlen (sum_resid r idx size bs) = size.
  Proof.
    intros. unfold sum_resid. destruct bs.
    - now apply zlen_aggregate_batched.
    - now apply zlen_aggregate_scatter.
  Qed.

  Lemma accept_facts : forall rbs mp ef r s r' a,
    accept_move_and_sample_leaves rbs mp ef r s = (r', a) ->
    a_to_prune a = xorb (a_acc a) (m_grow (s_move s)) /\
    (a_acc a = true -> m_allowed (s_move s) = true) /\
    (forall m, mp = Some m -> a_acc a = true ->
       m <= c_left (s_counts s) /\ m <= c_right (s_counts s)).
  Proof.
    intros rbs mp ef r s r' a E. unfold accept_move_and_sample_leaves in E.
    injection E as _ <-. cbn [a_to_prune a_acc].
    split; auto. split.
    - destruct mp; rewrite ?andb_true_iff; tauto.
    - intros m Em. subst mp. rewrite !andb_true_iff, !Z.leb_le. tauto.
  Qed.

  Lemma accept_zlen : forall rbs mp ef r s r' a,
    accept_move_and_sample_leaves rbs mp ef r s = (r', a) ->
    zlen (s_count_tree s) = zlen (t_leaf (s_tree s)) ->
    zlen (mean_factor (s_prelf s)) = zlen (t_leaf (s_tree s)) ->
    zlen (centered_leaves (s_prelf s)) = zlen (t_leaf (s_tree s)) ->
    zlen (a_leaf a) = zlen (t_leaf (s_tree s)) /\
    zlen r' = Z.min (zlen r) (zlen (t_idx (s_tree s))).
  Proof.
    intros rbs mp ef r s r' a E H1 H2 H3. unfold accept_move_and_sample_leaves in E.
    injection E as <- <-. cbn [a_leaf].
    pose proof (zlen_nonneg _ (t_leaf (s_tree s))).
    split.
    - rewrite !zlen_scatter_set, !zlen_map2, zlen_scatter_set, !zlen_map2.
      rewrite zlen_sum_resid by lia. lia.
    - now rewrite zlen_map2, zlen_map.
  Qed.

  Variable b : bart.
  Hypothesis SO : setup_ok b.
  Let d := bd b.
  Let p := bp b.
  Let ms := max_split b.

  Variable t : tree.
  Hypothesis TI : tree_inv b t.
  Let var := t_var t.
  Let sp := t_split t.

  Variable m : move.
  Hypothesis MO : move_ok b t m.
  Hypothesis VE : var_ext b t (m_var_tree m).
  Hypothesis ML : m_left m = 2 * m_node m.
  Hypothesis MR : m_right m = 2 * m_node m + 1.
  Let n := m_node m.
  Let v := m_grow_var m.
  Let s := m_grow_split m.
  Let var' := m_var_tree m.

  Lemma Hd : 2 <= d <= 64. Proof. exact (so_d _ SO). Qed.
  Lemma Hvl : zlen var = heap_size d. Proof. exact (ti_var _ _ TI). Qed.
  Lemma Hsl : zlen sp = heap_size d. Proof. exact (ti_split _ _ TI). Qed.
  Lemma Hvl' : zlen var' = heap_size d. Proof. apply VE. Qed.
  Lemma Hh : 2 <= heap_size d. Proof. now apply heap_ge2. Qed.
  Lemma Hd1 : 1 <= d <= 64. Proof. pose proof Hd. lia. Qed.

  Lemma leaf_bounds : forall i, leaf_node sp i -> 1 <= i < 2 * heap_size d.
  Proof.
    intros i [R _]. pose proof (reachable_pos _ _ R). pose proof Hsl. pose proof Hh.
    apply reachable_lt in R; lia.
  Qed.

  (** grow moves *)

  (** the split array grown at the node *)
  Let gsp := scatter_set sp n s.

  Section Grow.
    Hypothesis MG : m_grow m = true.
    Hypothesis CG : can_grow b t n.
    Hypothesis HV : forall i, 0 <= i -> entry var' i = if i =? n then v else entry var i.
    Hypothesis RO : rule_ok ms var sp n v s \/ spilled (split_bits b) ms var sp n v s.
    Hypothesis SN : s <> 0.

    Lemma Hn : 1 <= n < heap_size d.
    Proof. eapply can_grow_bounds; eauto. Qed.
    Lemma Hs : 1 <= s < 2 ^ split_bits b.
    Proof.
      destruct RO as [R | (_ & S & _)]; [| lia].
      apply (rule_bound b SO t n v s); auto. apply Hn.
    Qed.
    Lemma NDn : ~ decision sp n.
    Proof. destruct CG as ((_ & N) & _). exact N. Qed.
    Lemma leaf_below : forall i, 1 <= i -> ~ decision sp i -> i / 2 = n -> ~ decision sp i.
    Proof. auto. Qed.
    Lemma ND_child : forall c, 2 <= c -> c / 2 = n -> ~ decision sp c /\ ~ reachable sp c.
    Proof.
      intros c Hc E.
      assert (NR : ~ reachable sp c).
      { intros R. apply reachable_parent in R; auto. rewrite E in R. now apply NDn. }
      split; auto. intros D. apply NR. now apply (ti_stray _ _ TI).
    Qed.
    Lemma ND2 : ~ decision sp (2 * n).
    Proof. pose proof Hn. apply ND_child; lia. Qed.
    Lemma ND3 : ~ decision sp (2 * n + 1).
    Proof. pose proof Hn. apply ND_child; lia. Qed.

    Lemma gsp_set : set_node sp gsp n s.
    Proof.
      clear HV RO SN MG. intros i Hi. unfold gsp. pose proof Hn. pose proof Hsl. apply entry_scatter; lia.
    Qed.

    Lemma grown_traverse : forall x,
      traverse_tree x var' gsp =
      if traverse_tree x var sp =? n then 2 * n + b2z (s <=? gather zmode x v)
      else traverse_tree x var sp.
    Proof.
      intros x. pose proof Hn as Hn. pose proof Hs.
      apply (traverse_grow d Hd1 x var var' sp gsp n v s Hvl Hsl Hvl').
      - unfold gsp. rewrite zlen_scatter_set. apply Hsl.
      - lia.
      - apply gsp_set.
      - lia.
      - apply VE.
      - rewrite HV by lia. now rewrite Z.eqb_refl.
      - apply NDn.
      - apply ND2.
      - apply ND3.
    Qed.

    (** the leaf indices after the growth, as they are computed *)
    Definition sent (x : list Z) : Z :=
      if traverse_tree x var sp =? n then 2 * n + b2z (s <=? gather zmode x v)
      else traverse_tree x var sp.

    Lemma sent_indices : apply_grow_to_indices m (t_idx t) (X b) = map sent (X b).
    Proof.
      clear HV RO SN.
      unfold apply_grow_to_indices. rewrite MG. fold n v s var'.
      set (bits := minimal_unsigned_bits _).
      pose proof Hn as Hn'. pose proof Hh.
      assert (W : forall i, 0 <= i < 2 * heap_size d -> wrap bits i = i).
      { intros i Hi. unfold bits. apply (index_fits d var' Hd1 Hvl' i Hi). }
      rewrite (W n), shiftl_1, (W (2 * n)) by lia.
      rewrite (ti_idx _ _ TI). fold var sp. rewrite map2_map_map. apply map_ext. intros x.
      unfold sent. destruct (_ =? n); auto. apply W.
      destruct (s <=? _); cbn [b2z]; lia.
    Qed.

    Lemma collapse_sent : map (collapse n) (map sent (X b)) = t_idx t.
    Proof.
      clear HV RO SN MG.
      rewrite (ti_idx _ _ TI). fold var sp. rewrite map_map. apply map_ext. intros x.
      unfold sent.
      pose proof (traverse_leaf d Hd1 x var sp Hvl Hsl) as [R _]. pose proof Hn.
      apply collapse_grow; try lia.
      - intros E. rewrite E in R. apply (ND_child (2 * n)) in R; try lia; auto.
      - intros E. rewrite E in R. apply (ND_child (2 * n + 1)) in R; try lia; auto.
    Qed.

    Lemma sent_not_node : forall x, sent x <> n.
    Proof.
      clear HV RO SN MG.
      intros x. unfold sent. pose proof Hn as Hnb. destruct (Z.eqb_spec (traverse_tree x var sp) n); auto.
      destruct (s <=? _); cbn [b2z]; lia.
    Qed.

    Lemma grow_indices :
      apply_grow_to_indices m (t_idx t) (X b) = map (fun x => traverse_tree x var' gsp) (X b).
    Proof.
      rewrite sent_indices. apply map_ext. intros x. now rewrite grown_traverse.
    Qed.

    Lemma collapse_grown :
      map (collapse n) (map (fun x => traverse_tree x var' gsp) (X b)) = t_idx t.
    Proof.
      rewrite <- collapse_sent. f_equal. apply map_ext. intros x. now rewrite grown_traverse.
    Qed.

    (** with a spilled rule all points go to the right *)
    Lemma spilled_right : spilled (split_bits b) ms var sp n v s -> ~ In (2 * n) (map sent (X b)).
    Proof.
      clear HV RO SN MG.
      intros (_ & S & (a & Ha & Hb & Ev & Es)) Hin. apply in_map_iff in Hin.
      destruct Hin as (x & Ex & _). unfold sent in Ex. pose proof Hn as Hnb.
      destruct (Z.eqb_spec (traverse_tree x var sp) n) as [E | E].
      - assert (Hge : s <= gather zmode x v).
        { apply (traverse_tree_spec d x var sp n Hd1 Hvl Hsl) in E.
          apply route_visits in E; [| constructor].
          assert (V : entry sp a <= gather zmode x (entry var a)).
          { clear - E Ha Hb. revert Hb. induction E as [| i E IH D L | i E IH D L]; intros Hb.
            - now apply descends_root in Hb.
            - apply descends_left in Hb; [| lia | eapply visits_pos; eauto].
              destruct Hb as [[_ Hb] | Hb]; [discriminate | auto].
            - apply descends_right in Hb; [| lia | eapply visits_pos; eauto].
              destruct Hb as [[-> _] | Hb]; auto. }
          rewrite Ev, Es in V. lia. }
        rewrite (proj2 (Z.leb_le _ _) Hge) in Ex. cbn [b2z] in Ex. lia.
      - pose proof (traverse_leaf d Hd1 x var sp Hvl Hsl) as [R _]. rewrite Ex in R.
        apply (ND_child (2 * n)) in R; auto; lia.
    Qed.
  End Grow.

  Lemma nogrow_indices : m_grow m = false \/ ~ In n (t_idx t) ->
    apply_grow_to_indices m (t_idx t) (X b) = t_idx t.
  Proof.
    intros H. unfold apply_grow_to_indices. fold n v s var'.
    set (bits := minimal_unsigned_bits _). rewrite Hvl'.
    assert (Hout : forall li, In li (t_idx t) ->
      li =? (if m_grow m then n else 2 * heap_size d) = false).
    { intros li Hli. apply Z.eqb_neq. destruct (m_grow m).
      - destruct H as [H | H]; [discriminate |]. intros ->. auto.
      - eapply idx_range in Hli; eauto. fold d in Hli. lia. }
    assert (Hlen : length (t_idx t) = length (X b)) by (rewrite (ti_idx _ _ TI); apply map_length).
    set (go := map _ (X b)).
    assert (Hlen' : length go = length (t_idx t)) by (unfold go; rewrite map_length; auto).
    clearbody go. clear Hlen.
    revert go Hlen' Hout. generalize (t_idx t) as idx. induction idx as [| li idx IH]; intros go Hl Ho;
      destruct go; cbn [map2] in *; try discriminate; auto.
    rewrite Ho by now left. f_equal. apply IH; auto. intros; apply Ho; now right.
  Qed.

  (** counts at a proper node *)
  Lemma counts_spec : forall idx ct c,
    compute_count_trees idx m (count_batch_size b) = (ct, c) ->
    (forall j, In j idx -> 0 <= j) -> zlen idx < 2 ^ 32 ->
    zlen ct = 2 ^ d /\
    (1 <= n < heap_size d ->
       c_left c = occ idx (2 * n) /\ c_right c = occ idx (2 * n + 1) /\
       c_total c = occ idx (2 * n) + occ idx (2 * n + 1) /\
       forall i, 0 <= i < 2 * heap_size d ->
         zget 0 ct i = if i =? n then occ idx (2 * n) + occ idx (2 * n + 1) else occ idx i) /\
    (heap_size d <= n -> forall i, 0 <= i < 2 * heap_size d -> i <> n -> zget 0 ct i = occ idx i).
  Proof.
    intros idx ct c E Hj Hlen. unfold compute_count_trees in E. fold var' n in E.
    rewrite Hvl', ML, MR in E. fold n in E. pose proof Hh. pose proof Hd.
    assert (H2 : heap_size d * 2 = 2 ^ d) by (rewrite <- heap_2 by lia; lia).
    set (ct0 := count_datapoints_per_leaf idx (heap_size d * 2) (count_batch_size b)) in *.
    assert (Lc : zlen ct0 = 2 ^ d) by (unfold ct0; rewrite zlen_count_datapoints; lia).
    assert (Gc : forall i, 0 <= i < 2 * heap_size d -> zget 0 ct0 i = occ idx i).
    { intros i Hi. unfold ct0. apply zget_count_datapoints; auto; [apply (so_cbs _ SO) | lia]. }
    injection E as <- <-. cbn [c_left c_right c_total].
    split; [now rewrite zlen_scatter_set |]. split.
    - intros Hn. rewrite !(gather_in _ _ 0) by lia. rewrite !Gc by lia.
      assert (Et : add32 (occ idx (2 * n)) (occ idx (2 * n + 1)) =
                   occ idx (2 * n) + occ idx (2 * n + 1)).
      { unfold add32. apply wrap_small. pose proof (occ_nonneg idx (2 * n)).
        pose proof (occ_nonneg idx (2 * n + 1)). pose proof (occ_2_le idx (2 * n) (2 * n + 1)). lia. }
      rewrite Et. split; auto. split; auto. split; auto.
      intros i Hi. rewrite zget_scatter_set by lia. rewrite (Z.eqb_sym n i). rewrite Gc by lia. auto.
    - intros Hn i Hi Ni. rewrite zget_scatter_set_gen by lia.
      destruct (Z.eqb_spec n i); [lia |]. now apply Gc.
  Qed.

  (** final leaf indices *)
  Lemma final_indices : forall idx tp,
    (forall j, In j idx -> 0 <= j < 2 * heap_size d) -> 0 <= n ->
    apply_moves_to_leaf_indices idx m tp =
    if tp && (n <? heap_size d) then map (collapse n) idx else idx.
  Proof.
    intros idx tp Hj Hn. unfold apply_moves_to_leaf_indices. fold var' n.
    set (bits := minimal_unsigned_bits _). rewrite ML. fold n. pose proof Hh.
    assert (W : forall i, 0 <= i < 2 * heap_size d -> wrap bits i = i).
    { intros i Hi. unfold bits. apply (index_fits d var' Hd1 Hvl' i Hi). }
    assert (Hb : 1 <= bits) by (pose proof (minimal_unsigned_bits_ge8 (2 * zlen var' - 1)); unfold bits; lia).
    assert (Hl : forall j, 0 <= j < 2 * heap_size d -> 0 <= j < 2 ^ bits).
    { intros j Hj'. rewrite <- (W j) by auto. apply Z.mod_pos_bound. apply pow2_pos. lia. }
    destruct tp; cbn [andb].
    - destruct (Z.ltb_spec n (heap_size d)).
      + apply map_ext_in. intros li Hli. rewrite land_mask by auto.
        rewrite andb_true_r, W by lia. unfold collapse.
        destruct (Z.eqb_spec (2 * (li / 2)) (2 * n)), (Z.eqb_spec li (2 * n)),
          (Z.eqb_spec li (2 * n + 1)); cbn [orb]; auto; lia.
      + rewrite <- (map_id idx) at 2. apply map_ext_in. intros li Hli. rewrite land_mask by auto.
        specialize (Hj li Hli). destruct (Z.eqb_spec (2 * (li / 2)) (2 * n)); auto; lia.
    - rewrite <- (map_id idx) at 2. apply map_ext. intros li. now rewrite andb_false_r.
  Qed.

  (** ** the new tree *)
  Variables (kf : key) (ti : Z) (g : rng fo).
  Let st := parallel_stage_tree b kf ti t m.
  Variables (r r' : list F) (a : stage2) (ef : F).
  Hypothesis ACC : accept_move_and_sample_leaves (resid_batch_size b) (min_points_per_leaf b) ef r st
                   = (r', a).
  Let t' := final_tree (split_bits b) st a.
  Let gidx := apply_grow_to_indices m (t_idx t) (X b).

  Lemma st_move : s_move st = m.
  Proof. unfold st, parallel_stage_tree. now destruct (compute_count_trees _ _ _). Qed.

  Lemma gidx_range : forall j, In j gidx -> 1 <= j < 2 * heap_size d.
  Proof.
    intros j. unfold gidx. destruct MO as [MG _ CG _ HV RO _ | MG _ _ _ | H1 H2 _ _ _].
    - rewrite sent_indices by auto. intros Hj. apply in_map_iff in Hj. destruct Hj as (x & <- & _).
      pose proof (traverse_bounds d x var sp Hd1 Hvl Hsl) as TB. pose proof (Hn CG) as Hnb.
      rewrite <- heap_2 in TB by (pose proof Hd; lia). unfold sent.
      destruct (_ =? n); [| lia]. destruct (s <=? _); cbn [b2z]; lia.
    - rewrite nogrow_indices by auto. intros Hj. eapply idx_range in Hj; eauto. tauto.
    - rewrite nogrow_indices by auto. intros Hj. eapply idx_range in Hj; eauto. tauto.
  Qed.

  Lemma idx_len : zlen (t_idx t) = zlen (X b).
  Proof. rewrite (ti_idx _ _ TI). apply zlen_map. Qed.

  Lemma gidx_len : zlen gidx = zlen (X b).
  Proof.
    unfold gidx, apply_grow_to_indices. rewrite zlen_map2, zlen_map, idx_len. lia.
  Qed.

  (** lengths *)
  Lemma st_lens :
    zlen (t_leaf (s_tree st)) = 2 ^ d /\ zlen (s_count_tree st) = 2 ^ d /\
    zlen (mean_factor (s_prelf st)) = 2 ^ d /\ zlen (centered_leaves (s_prelf st)) = 2 ^ d /\
    t_idx (s_tree st) = gidx /\ t_var (s_tree st) = var' /\ t_split (s_tree st) = sp.
  Proof.
    unfold st, parallel_stage_tree. fold gidx.
    destruct (compute_count_trees gidx m (count_batch_size b)) as [ct c] eqn:E.
    cbn [s_tree s_count_tree s_prelf t_leaf t_idx t_var t_split].
    pose proof (ti_leaf _ _ TI) as HL. fold d in HL.
    destruct (counts_spec gidx ct c E) as (Lc & _).
    { intros j Hj. apply gidx_range in Hj. lia. }
    { rewrite gidx_len. apply (so_n _ SO). }
    split; [unfold adapt_leaf_trees_to_grow_indices; now rewrite !zlen_scatter_set |].
    split; auto.
    unfold precompute_leaf_terms. cbn [mean_factor centered_leaves].
    rewrite zlen_map2, !zlen_map, zlen_arange by apply zlen_nonneg.
    repeat split; auto; lia.
  Qed.

  Lemma acc_lens : zlen (t_leaf t') = 2 ^ d /\ zlen r' = Z.min (zlen r) (zlen (X b)).
  Proof.
    destruct st_lens as (L1 & L2 & L3 & L4 & L5 & _).
    destruct (accept_zlen _ _ _ _ _ _ _ ACC) as [E1 E2]; try congruence.
    unfold t'. cbn [final_tree t_leaf]. rewrite L5, gidx_len in E2. split; [congruence | auto].
  Qed.

  (** the three possible outcomes *)
  Inductive outcome : Prop :=
  | out_same :
      t_split t' = sp -> t_idx t' = t_idx t ->
      (a_acc a = true -> heap_size d <= n) -> outcome
  | out_grow :
      a_acc a = true -> m_grow m = true -> can_grow b t n ->
      zget f0 (p_propose_grow b) n <> f0 ->
      t_split t' = gsp ->
      (forall i, 0 <= i -> entry var' i = if i =? n then v else entry var i) ->
      rule_ok ms var sp n v s -> (v < p \/ exhausted b t n) ->
      t_idx t' = map (fun x => traverse_tree x var' gsp) (X b) ->
      (forall k, min_points_per_leaf b = Some k ->
         k <= occ (t_idx t') (2 * n) /\ k <= occ (t_idx t') (2 * n + 1)) -> outcome
  | out_prune :
      a_acc a = true -> m_grow m = false -> prunable t n ->
      t_split t' = scatter_set sp n 0 ->
      t_idx t' = map (collapse n) (t_idx t) ->
      (forall k, min_points_per_leaf b = Some k ->
         k <= occ (t_idx t) (2 * n) /\ k <= occ (t_idx t) (2 * n + 1)) -> outcome.

  Lemma t'_var : t_var t' = var'.
  Proof. destruct st_lens as (_ & _ & _ & _ & _ & E & _). exact E. Qed.

  Lemma n_nonneg : 0 <= n.
  Proof.
    destruct MO as [MG _ CG _ HV RO _ | MG _ PR _ | H1 H2 _ _ _].
    - pose proof (can_grow_bounds b t n CG). lia.
    - destruct PR as [[? _] _]. fold n in H. lia.
    - pose proof Hh. fold d in H1. fold n in H1. lia.
  Qed.

  Lemma t'_idx : t_idx t' = if a_to_prune a && (n <? heap_size d) then map (collapse n) gidx else gidx.
  Proof.
    unfold t'. cbn [final_tree t_idx]. rewrite st_move.
    destruct st_lens as (_ & _ & _ & _ & -> & _). apply final_indices; [| apply n_nonneg].
    intros j Hj. apply gidx_range in Hj. lia.
  Qed.

  Lemma t'_split : t_split t' = apply_moves_to_split_trees (split_bits b) sp m (a_to_prune a).
  Proof.
    unfold t'. cbn [final_tree t_split]. rewrite st_move.
    now destruct st_lens as (_ & _ & _ & _ & _ & _ & ->).
  Qed.

  Lemma st_counts : 1 <= n < heap_size d ->
    c_left (s_counts st) = occ gidx (2 * n) /\ c_right (s_counts st) = occ gidx (2 * n + 1).
  Proof.
    intros Hn. unfold st, parallel_stage_tree. fold gidx.
    destruct (compute_count_trees gidx m (count_batch_size b)) as [ct c] eqn:E.
    cbn [s_counts]. destruct (counts_spec gidx ct c E) as (_ & H & _).
    { intros j Hj. apply gidx_range in Hj. lia. }
    { rewrite gidx_len. apply (so_n _ SO). }
    destruct (H Hn) as (H1 & H2 & _). auto.
  Qed.

  Lemma outcomes : outcome.
  Proof.
    destruct (accept_facts _ _ _ _ _ _ _ ACC) as (Ep & Ha & Hm). rewrite st_move in *.
    pose proof t'_idx as TX. pose proof t'_split as TS. pose proof Hh as Hh0.
    unfold apply_moves_to_split_trees in TS. fold n s in TS.
    pose proof Hsl as Hsl0. rewrite Hsl0 in TS.
    destruct MO as [MG MA CG GP HV RO EX | MG MA PR D1 | N1 N2 N3 N4 N5].
    - pose proof (can_grow_bounds b t n CG) as Hnb. fold d in Hnb.
      assert (Hsb : 0 <= s < 2 ^ split_bits b).
      { destruct RO as [RO' | (_ & S & _)]; auto. pose proof (rule_bound b SO t n v s RO' Hnb). lia. }
      rewrite MG in *.
      rewrite (wrap_small _ s) in TS by lia. fold gsp in TS.
      assert (Hlt : (n <? heap_size d) = true) by (apply Z.ltb_lt; lia). rewrite Hlt, andb_true_r in TX.
      pose proof (sent_indices MG CG) as GI0. fold gidx in GI0.
      destruct (a_acc a) eqn:Eacc; cbn [xorb] in Ep; rewrite Ep in *; cbn [andb] in TX.
      + (* a spilled rule is not accepted *)
        assert (RO' : rule_ok ms var sp n v s).
        { destruct RO as [RO' | SP]; auto. exfalso.
          destruct (so_wrap _ SO) as [W | (k & Ek & Hk)].
          - specialize (W v).
            rewrite (spill_max b SO t TI n v) in W; [lia | apply CG | fold d; lia | apply SP | apply SP].
          - destruct (Hm k Ek eq_refl) as [M1 _]. destruct (st_counts Hnb) as [C1 _].
            rewrite C1, GI0, (occ_0 _ _ (spilled_right CG SP)) in M1. lia. }
        pose proof (rule_bound b SO t n v s RO' Hnb) as Hs1.
        assert (GI := grow_indices MG CG HV RO ltac:(lia)). fold gidx in GI.
        rewrite scatter_set_over in TS by (unfold gsp; rewrite zlen_scatter_set; lia).
        apply out_grow; auto; try (rewrite TX; exact GI).
        intros k Ek. destruct (Hm k Ek eq_refl) as [M1 M2].
        destruct (st_counts Hnb) as [C1 C2]. rewrite C1, C2 in *. rewrite TX. auto.
      + apply out_same; auto.
        * rewrite TS. unfold gsp. apply scatter_same; try lia.
          apply not_decision_0; [lia |]. apply (NDn CG).
        * rewrite TX, GI0. apply (collapse_sent CG).
        * congruence.
    - pose proof PR as PR'. destruct PR' as (Dn & Dl & Dr). fold n sp in Dn, Dl, Dr.
      pose proof (decision_lt _ _ Dn) as Hnb. pose proof (proj1 Dn) as Hn1.
      rewrite MG in *. fold n in Hnb.
      rewrite (scatter_set_over _ _ sp (heap_size d)) in TS by lia.
      assert (Hlt : (n <? heap_size d) = true) by (apply Z.ltb_lt; lia). rewrite Hlt, andb_true_r in TX.
      pose proof (nogrow_indices (or_introl MG)) as GI. fold gidx in GI. rewrite GI in TX.
      destruct (a_acc a) eqn:Eacc; cbn [xorb] in Ep; rewrite Ep in *.
      + apply out_prune; auto. intros k Ek. destruct (Hm k Ek eq_refl) as [M1 M2].
        destruct st_counts as [C1 C2]; [lia |]. rewrite C1, C2, GI in *. auto.
      + rewrite scatter_set_over in TS by lia. apply out_same; auto; congruence.
    - fold n d in N1. assert (Hlt : (n <? heap_size d) = false) by (apply Z.ltb_ge; lia).
      rewrite Hlt, andb_false_r in TX.
      pose proof (nogrow_indices (or_intror N2)) as GI. fold gidx in GI. rewrite GI in TX.
      apply out_same; auto. rewrite TS.
      rewrite (scatter_set_over _ _ sp) by (destruct (m_grow m); lia).
      rewrite scatter_set_over; auto. destruct (a_to_prune a); lia.
  Qed.

  (** affluence of the new tree *)
  Lemma t'_aff : forall k, min_points_per_leaf b = Some k ->
    exists af, t_aff t' = Some af /\ zlen af = heap_size d /\
    forall i, leaf_node (t_split t') i -> i < heap_size d ->
      zget false af i = (2 * k <=? occ (t_idx t') i).
  Proof.
    intros k Ek. unfold t' at 1. cbn [final_tree t_aff]. unfold st at 1, parallel_stage_tree. fold gidx.
    destruct (compute_count_trees gidx m (count_batch_size b)) as [ct c] eqn:E.
    cbn [s_tree t_aff]. rewrite Ek.
    destruct (counts_spec gidx ct c E) as (Lc & C1 & C2).
    { intros j Hj. apply gidx_range in Hj. lia. }
    { rewrite gidx_len. apply (so_n _ SO). }
    pose proof Hh as Hh0. assert (H2 : 2 * heap_size d = 2 ^ d) by (apply heap_2; pose proof Hd; lia).
    pose proof Hvl' as Hvl0. fold var'.
    assert (Lf : zlen (firstn (length var') ct) = heap_size d).
    { unfold zlen in *. rewrite firstn_length. lia. }
    eexists. split; [reflexivity |]. rewrite zlen_map. split; auto.
    intros i L Hi. assert (Hi1 : 1 <= i) by (destruct L as [R _]; now apply reachable_pos in R).
    rewrite (zget_map _ _ _ 0) by lia. f_equal.
    assert (Ef : zget 0 (firstn (length var') ct) i = zget 0 ct i).
    { unfold zget. rewrite <- (firstn_skipn (length var') ct) at 2.
      rewrite app_nth1; auto. unfold zlen in *. lia. }
    rewrite Ef. clear Ef Lf.
    destruct outcomes as [O1 O2 O3 | OA OG CG OP O1 HV RO _ O2 _ | OA OG PR O1 O2 _].
    - rewrite O1 in L. rewrite O2.
      destruct MO as [MG MA CG GP HV RO EX | MG MA PR D1 | N1 N2 N3 N4 N5].
      + pose proof (can_grow_bounds b t n CG) as Hnb. fold d in Hnb.
        destruct (C1 Hnb) as (_ & _ & _ & Hc). rewrite Hc by lia.
        pose proof (sent_indices MG CG) as GI. fold gidx in GI.
        pose proof (collapse_sent CG) as CGr. rewrite <- GI in CGr. rewrite <- CGr.
        destruct (Z.eqb_spec i n) as [-> | Ni].
        * rewrite occ_collapse_node by lia. rewrite (occ_0 gidx n); [lia |].
          rewrite GI. intros Hin. apply in_map_iff in Hin. destruct Hin as (x & Ex & _).
          now apply (sent_not_node CG) in Ex.
        * assert (Hnc : i <> 2 * n /\ i <> 2 * n + 1).
          { split; intros ->; destruct L as [R _]; eapply ND_child in R; eauto; lia. }
          symmetry. apply occ_collapse_other; tauto.
      + destruct PR as (Dn & _). fold n sp in Dn. pose proof (decision_lt _ _ Dn) as Hnb.
        pose proof (proj1 Dn) as Hn1. pose proof Hsl.
        pose proof (nogrow_indices (or_introl MG)) as GI. fold gidx in GI. rewrite GI in *.
        destruct (C1 ltac:(lia)) as (_ & _ & _ & Hc). rewrite Hc by lia.
        destruct (Z.eqb_spec i n) as [-> | Ni]; auto. now apply L in Dn.
      + pose proof (nogrow_indices (or_intror N2)) as GI. fold gidx in GI. rewrite GI in *.
        fold d n in N1. apply C2; lia.
    - pose proof (can_grow_bounds b t n CG) as Hnb. fold d in Hnb.
      destruct (C1 Hnb) as (_ & _ & _ & Hc). rewrite Hc by lia.
      pose proof (rule_bound b SO t n v s RO Hnb) as Hs1.
      rewrite O2. rewrite <- (grow_indices OG CG HV (or_introl RO) ltac:(lia)). fold gidx.
      destruct (Z.eqb_spec i n) as [-> | Ni]; auto.
      exfalso. apply L. rewrite O1. split; [lia |]. rewrite (gsp_set CG) by lia.
      rewrite Z.eqb_refl. lia.
    - destruct PR as (Dn & Dl & Dr). fold n sp in Dn, Dl, Dr.
      pose proof (decision_lt _ _ Dn) as Hnb.
      pose proof (proj1 Dn) as Hn1. pose proof Hsl.
      pose proof (nogrow_indices (or_introl OG)) as GI. fold gidx in GI. rewrite GI in *.
      destruct (C1 ltac:(lia)) as (_ & _ & _ & Hc). rewrite Hc by lia. rewrite O2.
      destruct (Z.eqb_spec i n) as [-> | Ni].
      + rewrite occ_collapse_node by lia. rewrite (occ_0 (t_idx t) n); [lia |].
        intros Hin. eapply idx_range in Hin; eauto. destruct Hin as [[_ N] _]. auto.
      + assert (Hnc : i <> 2 * n /\ i <> 2 * n + 1).
        { rewrite O1 in L.
          assert (Nn : ~ decision (scatter_set sp n 0) n).
          { intros [_ E0]. rewrite entry_scatter in E0 by lia. rewrite Z.eqb_refl in E0. lia. }
          split; intros ->; destruct L as [R _]; apply reachable_parent in R; try lia;
            destruct R as [_ R].
          - replace (2 * n / 2) with n in R by lia. auto.
          - replace ((2 * n + 1) / 2) with n in R by lia. auto. }
        symmetry. apply occ_collapse_other; tauto.
  Qed.

  Lemma t'_aff_none : min_points_per_leaf b = None -> t_aff t' = None.
  Proof.
    intros E. unfold t'. cbn [final_tree t_aff]. unfold st, parallel_stage_tree.
    destruct (compute_count_trees _ _ _). cbn [s_tree t_aff]. rewrite E.
    pose proof (ti_aff _ _ TI) as A. now rewrite E in A.
  Qed.

  (** reachability in the three cases *)
  Lemma no_stray_grow : can_grow b t n -> s <> 0 -> no_stray gsp.
  Proof.
    intros CG Hs0. apply no_stray_local. intros i Hi D.
    pose proof (ti_stray _ _ TI) as NS. fold sp in NS. rewrite no_stray_local in NS.
    pose proof (Hn CG) as Hnb. pose proof (gsp_set CG) as GS.
    destruct (Z.eq_dec i n) as [E | E].
    - rewrite E in *. destruct CG as ((R & _) & _). fold sp in R.
      apply reachable_parent in R; [| lia]. destruct R as [_ R].
      assert (n / 2 <> n) by lia. apply (set_node_decision sp gsp n s); auto.
    - rewrite (set_node_decision sp gsp n s) in D by auto.
      apply NS in D; auto. assert (i / 2 <> n) by (intros <-; destruct CG as ((_ & N) & _); auto).
      now apply (set_node_decision sp gsp n s).
  Qed.

  Lemma psp_set : prunable t n -> set_node sp (scatter_set sp n 0) n 0.
  Proof.
    intros (Dn & _) i Hi. fold n sp in Dn. pose proof (decision_lt _ _ Dn).
    pose proof (proj1 Dn). apply entry_scatter; lia.
  Qed.

  Lemma no_stray_prune : prunable t n -> no_stray (scatter_set sp n 0).
  Proof.
    intros PR. pose proof (psp_set PR) as PS. destruct PR as (Dn & Dl & Dr). fold n sp in Dn, Dl, Dr.
    apply no_stray_local. intros i Hi D.
    pose proof (ti_stray _ _ TI) as NS. fold sp in NS. rewrite no_stray_local in NS.
    assert (Ni : i <> n).
    { intros ->. destruct D as [_ D]. rewrite PS in D by lia. rewrite Z.eqb_refl in D. lia. }
    rewrite (set_node_decision sp _ n 0) in D by auto.
    assert (i / 2 <> n).
    { intros E. destruct (Z.eq_dec (i mod 2) 0).
      - apply Dl. replace (2 * n) with i by lia. auto.
      - apply Dr. replace (2 * n + 1) with i by lia. auto. }
    rewrite (set_node_decision sp _ n 0) by auto. auto.
  Qed.

  Lemma rule_ok_ext : forall var1 sp1 i v0 s0,
    (forall a0 b0, 1 <= a0 -> descends a0 b0 i ->
       entry var1 a0 = entry var a0 /\ entry sp1 a0 = entry sp a0) ->
    rule_ok ms var sp i v0 s0 -> rule_ok ms var1 sp1 i v0 s0.
  Proof.
    intros var1 sp1 i v0 s0 H [H0 [[H1 H2] | H1]]; split; auto.
    left. split; auto. eapply available_ext; eauto.
  Qed.

  Theorem tree_step : tree_inv b t'.
  Proof.
    pose proof Hd as Hd0. pose proof Hsl as Hsl0. pose proof Hvl' as Hvl0. pose proof Hh as Hh0.
    destruct acc_lens as [LL _].
    destruct VE as (_ & V2 & V3 & V4). fold var' in V2, V3, V4. fold sp var in V4. fold p in V2.
    assert (AFF : match min_points_per_leaf b with
             | None => t_aff t' = None
             | Some m => exists a, t_aff t' = Some a /\ zlen a = heap_size (bd b) /\
                 forall i, leaf_node (t_split t') i -> i < heap_size (bd b) ->
                   zget false a i = (2 * m <=? occ (t_idx t') i)
             end).
    { pose proof t'_aff as A1. pose proof t'_aff_none as A2.
      destruct (min_points_per_leaf b); [now apply A1 | now apply A2]. }
    destruct outcomes as [O1 O2 O3 | OA OG CG OP O1 HV RO OE O2 O3 | OA OG PR O1 O2 O3].
    - constructor; auto; try rewrite t'_var; auto.
      + rewrite O1. auto.
      + rewrite O1. apply (ti_slot0 _ _ TI).
      + rewrite O1. apply (ti_stray _ _ TI).
      + rewrite O1. intros i D. pose proof (ti_stray _ _ TI i D) as R. fold sp in R.
        rewrite V4 by auto. apply rule_ok_ext; [| now apply (ti_rules _ _ TI)].
        intros a0 b0 Ha Hb. split; auto. apply V4. eapply reachable_above; eauto.
      + rewrite O1. apply (ti_ppg _ _ TI).
      + rewrite O1, O2, (ti_idx _ _ TI). apply map_ext. intros x. fold var sp. symmetry.
        apply (traverse_ext d); auto; try lia; [apply Hvl |]. intros i Hi; auto.
      + rewrite O1, O2. apply (ti_min _ _ TI).
    - pose proof (Hn CG) as Hnb. pose proof (gsp_set CG) as GS.
      pose proof (rule_bound b SO t n v s RO Hnb) as Hsb.
      assert (NDn0 : ~ decision sp n) by (apply NDn; auto).
      assert (Lg : zlen gsp = heap_size d) by (unfold gsp; rewrite zlen_scatter_set; auto).
      constructor; auto; try rewrite t'_var; auto.
      + rewrite O1. auto.
      + rewrite O1. unfold gsp. rewrite entry_scatter by lia.
        destruct (Z.eqb_spec 0 n); [lia |]. apply (ti_slot0 _ _ TI).
      + rewrite O1. apply no_stray_grow; auto. lia.
      + rewrite O1. intros i D. pose proof (no_stray_grow CG ltac:(lia) i D) as R.
        assert (Hanc : forall a0 b0, 1 <= a0 -> descends a0 b0 i ->
          entry var' a0 = entry var a0 /\ entry gsp a0 = entry sp a0).
        { intros a0 b0 Ha Hb. pose proof (reachable_above _ _ _ _ R Ha Hb) as Da.
          assert (Na : a0 <> n).
          { intros E. subst a0. destruct (Z.eq_dec i n) as [Ei | Ni].
            - pose proof (descends_gt _ _ _ Ha Hb). lia.
            - rewrite (set_node_decision sp gsp n s) in D by auto.
              apply NDn0. apply (reachable_above sp i n b0); auto. now apply (ti_stray _ _ TI). }
          rewrite HV by lia. destruct (Z.eqb_spec a0 n); [lia |]. split; auto.
          rewrite GS by lia. destruct (Z.eqb_spec a0 n); auto; lia. }
        rewrite HV by (destruct D; lia). rewrite GS by (destruct D; lia).
        destruct (Z.eqb_spec i n) as [-> | Ni].
        * now apply rule_ok_ext.
        * apply rule_ok_ext; auto. apply (ti_rules _ _ TI).
          now rewrite (set_node_decision sp gsp n s) in D by auto.
      + rewrite O1. intros i D. destruct (Z.eq_dec i n) as [-> | Ni]; auto.
        apply (ti_ppg _ _ TI). now rewrite (set_node_decision sp gsp n s) in D by auto.
      + rewrite O1. auto.
      + rewrite O1. intros k Ek D1 i L. destruct (O3 k Ek) as [M1 M2].
        destruct (Z.eq_dec i (2 * n)) as [-> | N2]; auto.
        destruct (Z.eq_dec i (2 * n + 1)) as [-> | N3]; auto.
        assert (Ni : i <> n).
        { intros ->. apply L. split; [lia |]. rewrite GS by lia. rewrite Z.eqb_refl. lia. }
        assert (Li : leaf_node sp i).
        { destruct L as [R ND]. split.
          - clear - R GS NDn0 N2 N3 Ni Hnb CG TI SO.
            destruct (Z.eq_dec i 1) as [-> | N1]; [constructor |].
            pose proof (reachable_pos _ _ R). pose proof R as R'.
            apply reachable_parent in R'; [| lia]. destruct R' as [_ Dp].
            assert (i / 2 <> n) by lia.
            rewrite (set_node_decision sp gsp n s) in Dp by auto.
            apply reachable_child; auto; try lia. now apply (ti_stray _ _ TI).
          - now rewrite (set_node_decision sp gsp n s) in ND by auto. }
        assert (D1' : decision sp 1).
        { destruct Li as [R _]. destruct (Z.eq_dec n 1) as [En | En].
          - exfalso. destruct (Z.eq_dec i 1) as [-> | N1]; [lia |].
            pose proof (reachable_pos _ _ R).
            assert (Hx : exists b0, descends 1 b0 i).
            { apply descends_pow; try lia. exists (Z.log2 i).
              pose proof (Z.log2_spec i ltac:(lia)) as LS.
              assert (1 <= Z.log2 i) by (apply Z.log2_le_pow2; [lia | change (2 ^ 1) with 2; lia]).
              split; auto. rewrite Z.pow_succ_r in LS by lia.
              apply Z.div_unique with (r := i - 2 ^ Z.log2 i); lia. }
            destruct Hx as [b0 Hb]. apply (reachable_above sp i 1 b0) in R; auto; [| lia].
            rewrite En in NDn0. auto.
          - rewrite (set_node_decision sp gsp n s) in D1 by auto. auto. }
        rewrite O2. pose proof (ti_min _ _ TI k Ek D1' i Li) as M.
        rewrite <- (collapse_grown CG HV (or_introl RO) ltac:(lia)) in M.
        rewrite occ_collapse_other in M; auto.
    - pose proof (psp_set PR) as PS. pose proof PR as (Dn & Dl & Dr). fold n sp in Dn, Dl, Dr.
      pose proof (decision_lt _ _ Dn) as Hnb. pose proof (proj1 Dn) as Hn1.
      constructor; auto; try rewrite t'_var; auto.
      + rewrite O1, zlen_scatter_set. auto.
      + rewrite O1, entry_scatter by lia. destruct (Z.eqb_spec 0 n); [lia |]. apply (ti_slot0 _ _ TI).
      + rewrite O1. now apply no_stray_prune.
      + rewrite O1. intros i D. pose proof (no_stray_prune PR i D) as R.
        assert (Ni : i <> n).
        { intros ->. destruct D as [_ D]. rewrite PS in D by lia. rewrite Z.eqb_refl in D. lia. }
        pose proof D as D0. rewrite (set_node_decision sp _ n 0) in D0 by auto.
        rewrite V4 by auto. rewrite PS by (destruct D; lia).
        destruct (Z.eqb_spec i n); [lia |].
        apply rule_ok_ext; [| now apply (ti_rules _ _ TI)].
        intros a0 b0 Ha Hb. pose proof (reachable_above _ _ _ _ R Ha Hb) as Da.
        assert (Na : a0 <> n).
        { intros ->. destruct Da as [_ Da]. rewrite PS in Da by lia. rewrite Z.eqb_refl in Da. lia. }
        rewrite (set_node_decision sp _ n 0) in Da by auto.
        split; [now apply V4 |]. rewrite PS by lia. destruct (Z.eqb_spec a0 n); auto; lia.
      + rewrite O1. intros i D. assert (Ni : i <> n).
        { intros ->. destruct D as [_ D]. rewrite PS in D by lia. rewrite Z.eqb_refl in D. lia. }
        apply (ti_ppg _ _ TI). now rewrite (set_node_decision sp _ n 0) in D by auto.
      + rewrite O1, O2, (ti_idx _ _ TI). rewrite map_map. apply map_ext. intros x. fold var sp.
        symmetry. apply (traverse_prune d); auto; try lia; [apply Hvl | now rewrite zlen_scatter_set].
      + rewrite O1, O2. intros k Ek D1 i L.
        destruct (O3 k Ek) as [M1 M2].
        assert (ND : ~ decision (scatter_set sp n 0) n).
        { intros [_ D]. rewrite PS in D by lia. rewrite Z.eqb_refl in D. lia. }
        assert (Hnc : i <> 2 * n /\ i <> 2 * n + 1).
        { split; intros ->; destruct L as [R _]; apply reachable_parent in R; try lia;
            destruct R as [_ R].
          - replace (2 * n / 2) with n in R by lia. auto.
          - replace ((2 * n + 1) / 2) with n in R by lia. auto. }
        assert (D1' : decision sp 1).
        { destruct (Z.eq_dec n 1) as [E | E]; [rewrite E in Dn; auto |].
          now rewrite (set_node_decision sp _ n 0) in D1 by auto. }
        destruct (Z.eq_dec i n) as [-> | Ni].
        * rewrite occ_collapse_node by lia. pose proof (occ_nonneg (t_idx t) n).
          pose proof (occ_nonneg (t_idx t) (2 * n + 1)). lia.
        * rewrite occ_collapse_other by tauto.
          apply (ti_min _ _ TI k Ek D1'). fold sp. destruct L as [R NDi]. split.
          -- destruct (Z.eq_dec i 1) as [-> | N1]; [constructor |].
             pose proof (reachable_pos _ _ R). pose proof R as R'.
             apply reachable_parent in R'; [| lia]. destruct R' as [_ Dp].
             assert (i / 2 <> n) by (intros E; rewrite E in Dp; auto).
             rewrite (set_node_decision sp _ n 0) in Dp by auto.
             apply reachable_child; auto; try lia. now apply (ti_stray _ _ TI).
          -- now rewrite (set_node_decision sp _ n 0) in NDi by auto.
  Qed.
End Step.
