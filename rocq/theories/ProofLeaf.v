(** What a step does to the leaf values and to the residuals, for one tree. *)
From Coq Require Import ZArith List Bool Lia.
From Verif Require Import Base LemBase ModelJaxext ModelGrove ModelStep SpecTree
  SpecSampling SpecRange Laws ProofTree ProofSampling ProofCategorical ProofRange
  ProofAggregate ProofRoute ProofMoves ProofStep.
Import ListNotations.
Open Scope Z_scope.
Ltac Zify.zify_post_hook ::= Z.div_mod_to_equations.

Section Leaf.
  Context {fo : fops} {zo : zoob} {foo : foob fo}.
  Variable b : bart.
  Hypothesis SO : setup_ok b.
  Let d := bd b.

  Variable t : tree.
  Hypothesis TI : tree_inv b t.
  Let var := t_var t.
  Let sp := t_split t.

  Variable m : move.
  Hypothesis MO : move_ok b t m.
  Hypothesis VE : var_ext b t (m_var_tree m).
  Hypothesis ML : m_left m = 2 * m_node m.
  Hypothesis MR : m_right m = 2 * m_node m + 1.
  Let n := m_node m.

  Variables (kf : key) (ti : Z) (g : rng fo).
  Let st := parallel_stage_tree b kf ti t m.
  Variables (r r' : list F) (a : stage2) (ef : F).
  Hypothesis ACC : accept_move_and_sample_leaves (resid_batch_size b) (min_points_per_leaf b) ef r st
                   = (r', a).
  Let t' := final_tree (split_bits b) st a.
  Let gidx := apply_grow_to_indices m (t_idx t) (X b).
  Let gleaf := adapt_leaf_trees_to_grow_indices (t_leaf t) m.

  Lemma pow_heap : 2 * heap_size d = 2 ^ d.
  Proof. apply heap_2. pose proof (so_d _ SO). unfold d. lia. Qed.

  Lemma heap2 : 2 <= heap_size d.
  Proof. exact (heap_ge2 b SO). Qed.

  Lemma st_leaf : t_leaf (s_tree st) = gleaf.
  Proof. unfold st, parallel_stage_tree. now destruct (compute_count_trees _ _ _). Qed.

  Lemma zlen_gleaf : zlen gleaf = 2 ^ d.
  Proof.
    unfold gleaf, adapt_leaf_trees_to_grow_indices. rewrite !zlen_scatter_set. apply (ti_leaf _ _ TI).
  Qed.

  (** values copied to the children keep the function of the tree *)
  Lemma gleaf_children : 1 <= n < heap_size d -> m_grow m = true ->
    zget f0 gleaf (2 * n) = zget f0 (t_leaf t) n /\
    zget f0 gleaf (2 * n + 1) = zget f0 (t_leaf t) n.
  Proof.
    intros Hn MG. unfold gleaf, adapt_leaf_trees_to_grow_indices. rewrite MG, ML, MR. fold n.
    pose proof (ti_leaf _ _ TI) as HL. fold d in HL. pose proof pow_heap.
    rewrite (gather_in _ _ f0) by lia.
    split.
    - rewrite zget_scatter_set by (rewrite ?zlen_scatter_set; lia).
      destruct (Z.eqb_spec (2 * n + 1) (2 * n)); [lia |].
      rewrite zget_scatter_set by lia. now rewrite Z.eqb_refl.
    - rewrite zget_scatter_set by (rewrite ?zlen_scatter_set; lia). now rewrite Z.eqb_refl.
  Qed.

  Lemma gleaf_other : forall i, 0 <= i < 2 ^ d -> (m_grow m = true -> i <> 2 * n /\ i <> 2 * n + 1) ->
    zget f0 gleaf i = zget f0 (t_leaf t) i.
  Proof.
    intros i Hi H. unfold gleaf, adapt_leaf_trees_to_grow_indices. rewrite ML, MR. fold n.
    pose proof (ti_leaf _ _ TI) as HL. fold d in HL. pose proof pow_heap.
    assert (0 <= n) by exact (n_nonneg b SO t m MO 0).
    destruct (m_grow m).
    - destruct (H eq_refl) as [G1 G2].
      rewrite zget_scatter_set_gen by (rewrite ?zlen_scatter_set; lia).
      destruct (Z.eqb_spec (2 * n + 1) i); [lia |].
      rewrite zget_scatter_set_gen by lia. destruct (Z.eqb_spec (2 * n) i); [lia |]. auto.
    - rewrite !scatter_set_over; rewrite ?scatter_set_over; auto; lia.
  Qed.

  (** leaf indices before the move: leaves *)
  Lemma idx_leaf : forall i, In i (t_idx t) -> leaf_node sp i /\ 1 <= i < 2 ^ d.
  Proof.
    intros i Hi. destruct (idx_range b SO t TI i Hi) as [H1 H2]. fold d in H2.
    pose proof pow_heap. split; auto; lia.
  Qed.

  (** after the adaptation each point has the same value as before *)
  Lemma grown_value : forall j, 0 <= j < zlen (X b) ->
    zget f0 gleaf (zget 0 gidx j) = zget f0 (t_leaf t) (zget 0 (t_idx t) j).
  Proof.
    intros j Hj. assert (Hl : zlen (t_idx t) = zlen (X b)) by (rewrite (ti_idx _ _ TI); apply zlen_map).
    assert (Hin : In (zget 0 (t_idx t) j) (t_idx t)) by (apply zget_In; lia).
    destruct (idx_leaf _ Hin) as [L HB]. pose proof pow_heap.
    destruct MO as [MG MA CG GP HV RO EX | MG MA PR D1 | N1 N2 N3 N4 N5].
    - pose proof (can_grow_bounds b t n CG) as Hn. fold d in Hn.
      unfold gidx. rewrite (sent_indices b SO t TI m VE MG CG).
      rewrite (zget_map _ _ _ nil) by auto. unfold sent.
      assert (E : traverse_tree (zget nil (X b) j) (t_var t) (t_split t) = zget 0 (t_idx t) j).
      { rewrite (ti_idx _ _ TI). now rewrite (zget_map _ _ _ nil) by auto. }
      rewrite E. fold n. destruct (gleaf_children Hn MG) as [G1 G2].
      destruct (Z.eqb_spec (zget 0 (t_idx t) j) n) as [En | Nn].
      + rewrite En. destruct (_ <=? _); cbn [b2z]; rewrite ?Z.add_0_r; auto.
      + apply gleaf_other; [lia |]. intros _.
        split; intros Ec; rewrite Ec in L; destruct L as [R _];
          apply (ND_child b t TI m CG) in R; auto; fold n; lia.
    - unfold gidx. rewrite (nogrow_indices b SO t TI m VE) by auto.
      apply gleaf_other; [lia |]. congruence.
    - unfold gidx. rewrite (nogrow_indices b SO t TI m VE) by auto.
      apply gleaf_other; [lia |]. intros MG. destruct (N4 MG) as [E _]. fold n d in E. lia.
  Qed.

  (** ** new leaf values *)

  Let rt0 := sum_resid r gidx (2 ^ d) (resid_batch_size b).
  Let rt1 := map2 fadd rt0 (map2 (fun c v => fmul (fofZ c) v) (s_count_tree st) gleaf).
  Let rt2 := scatter_set rt1 n (fadd (gather fmode rt1 (2 * n)) (gather fmode rt1 (2 * n + 1))).
  Let nl := map2 fadd (map2 fmul rt2 (mean_factor (s_prelf st))) (centered_leaves (s_prelf st)).

  Lemma accept_eq :
    a_to_prune a = xorb (a_acc a) (m_grow m) /\
    a_leaf a = scatter_set (scatter_set nl (if a_to_prune a then 2 * n else zlen nl) (gather fmode nl n))
       (if a_to_prune a then 2 * n + 1 else zlen nl) (gather fmode nl n) /\
    r' = map2 fadd r (map (gather fmode (map2 fsub gleaf (a_leaf a))) gidx).
  Proof.
    pose proof ACC as E. unfold accept_move_and_sample_leaves in E.
    pose proof (st_lens b SO t TI m MO VE ML MR kf ti g) as (L1 & _ & _ & _ & L5 & _).
    fold st in L1, L5. fold d in L1. fold gidx in L5.
    rewrite (st_move b t m kf ti g : s_move st = m) in E.
    rewrite ML, MR in E. fold n in E. rewrite L1, L5, st_leaf in E. fold rt0 rt1 rt2 nl in E.
    injection E as <- <-. cbn [a_to_prune a_acc a_leaf].
    split; auto. split; auto.
    f_equal. rewrite zlen_scatter_set. reflexivity.
  Qed.

  Lemma zlen_nl : zlen nl = 2 ^ d.
  Proof.
    pose proof (st_lens b SO t TI m MO VE ML MR kf ti g) as (L1 & L2 & L3 & L4 & _).
    fold st in L2, L3, L4. fold d in L2, L3, L4.
    pose proof zlen_gleaf. pose proof pow_heap. pose proof heap2.
    assert (zlen rt0 = 2 ^ d) by (unfold rt0; apply zlen_sum_resid; lia).
    unfold nl, rt2. rewrite !zlen_map2, zlen_scatter_set. unfold rt1. rewrite !zlen_map2. lia.
  Qed.

  (** value of the new leaves: the two children of a pruned node get the value
      drawn for the node *)
  Lemma a_leaf_at : forall i, 0 <= i < 2 ^ d ->
    zget f0 (a_leaf a) i =
    if a_to_prune a && (n <? heap_size d) && ((i =? 2 * n) || (i =? 2 * n + 1))
    then zget f0 nl n else zget f0 nl i.
  Proof.
    intros i Hi. destruct accept_eq as (_ & -> & _). pose proof zlen_nl as L. pose proof pow_heap.
    assert (Hn : 0 <= n) by exact (n_nonneg b SO t m MO 0).
    destruct (a_to_prune a); cbn [andb].
    - rewrite zget_scatter_set_gen by (rewrite ?zlen_scatter_set; lia).
      rewrite zget_scatter_set_gen by lia.
      rewrite (Z.eqb_sym (2 * n + 1) i), (Z.eqb_sym (2 * n) i).
      destruct (Z.ltb_spec n (heap_size d)).
      + rewrite (gather_in _ _ f0) by lia.
        destruct (i =? 2 * n), (i =? 2 * n + 1); auto.
      + destruct (Z.eqb_spec i (2 * n)), (Z.eqb_spec i (2 * n + 1)); auto; lia.
    - rewrite !scatter_set_over; rewrite ?scatter_set_over; auto; lia.
  Qed.

  Lemma zlen_a_leaf : zlen (a_leaf a) = 2 ^ d.
  Proof. destruct accept_eq as (_ & -> & _). rewrite !zlen_scatter_set. apply zlen_nl. Qed.

  Lemma gidx_rng : forall j, 0 <= j < zlen (X b) -> 1 <= zget 0 gidx j < 2 ^ d.
  Proof.
    intros j Hj. pose proof (gidx_range b SO t TI m MO VE 0) as G. fold gidx in G. fold d in G.
    pose proof (gidx_len b t TI m) as GL. fold gidx in GL. pose proof pow_heap.
    specialize (G (zget 0 gidx j)). lapply G; [lia |]. apply zget_In. lia.
  Qed.

  (** the value a point gets in the new tree *)
  Lemma final_value : forall j, 0 <= j < zlen (X b) ->
    zget f0 (t_leaf t') (zget 0 (t_idx t') j) = zget f0 (a_leaf a) (zget 0 gidx j).
  Proof.
    intros j Hj. unfold t'. change (t_leaf (final_tree (split_bits b) st a)) with (a_leaf a).
    pose proof (t'_idx b SO t TI m MO VE ML MR kf ti g a) as E. fold st in E. fold d in E. fold n in E.
    fold gidx in E. rewrite E. pose proof (gidx_len b t TI m) as GL. fold gidx in GL.
    destruct (a_to_prune a && (n <? heap_size d)) eqn:Ec; auto.
    rewrite (zget_map _ _ _ 0) by lia. pose proof (gidx_rng j Hj) as GR.
    assert (Hn : 0 <= n) by exact (n_nonneg b SO t m MO 0).
    unfold collapse. destruct ((zget 0 gidx j =? 2 * n) || (zget 0 gidx j =? 2 * n + 1)) eqn:Eg; auto.
    apply andb_true_iff in Ec. destruct Ec as [Ec1 Ec2]. apply Z.ltb_lt in Ec2. pose proof pow_heap.
    rewrite !a_leaf_at by lia. rewrite Ec1, (proj2 (Z.ltb_lt _ _) Ec2), Eg. cbn [andb].
    destruct ((n =? 2 * n) || (n =? 2 * n + 1)); auto.
  Qed.

  (** residuals: the old value of the tree is added, the new one subtracted *)
  Lemma resid_update : forall j, 0 <= j < zlen (X b) -> zlen r = zlen (X b) ->
    zget f0 r' j = fadd (zget f0 r j)
      (fsub (zget f0 (t_leaf t) (zget 0 (t_idx t) j))
            (zget f0 (t_leaf t') (zget 0 (t_idx t') j))).
  Proof.
    intros j Hj Hr. destruct accept_eq as (_ & _ & Er). rewrite Er.
    pose proof (gidx_len b t TI m) as GL. fold gidx in GL.
    rewrite (zget_map2 _ _ _ _ _ f0 f0) by (rewrite ?zlen_map; lia). f_equal.
    rewrite (zget_map _ _ _ 0) by lia. pose proof (gidx_rng j Hj) as GR.
    pose proof zlen_gleaf as L1. pose proof zlen_a_leaf as L2.
    rewrite (gather_in _ _ f0) by (rewrite zlen_map2; lia).
    rewrite (zget_map2 _ _ _ _ _ f0 f0) by lia.
    rewrite grown_value by auto. now rewrite final_value by auto.
  Qed.

  (** ** the leaves of the new tree *)
  Hypothesis HG : m_grow m = true -> exists i, can_grow b t i.
  Hypothesis HA : m_allowed m = false -> ~ decision sp 1.

  Lemma noop_leaf : heap_size d <= n -> leaf_node sp n -> ~ In n (t_idx t) ->
    (m_grow m = false -> m_allowed m = false) ->
    (m_grow m = true -> n = heap_size d /\
       forall i, can_grow b t i -> zget f0 (p_propose_grow b) i = f0) -> False.
  Proof.
    intros Hn L NI N3 N4. pose proof heap2. destruct (m_grow m).
    - destruct (N4 eq_refl) as [En NZ]. destruct (HG eq_refl) as [i CG].
      pose proof (NZ i CG) as Ei. pose proof (can_grow_bounds b t i CG) as Hi. fold d in Hi.
      rewrite (so_ppg _ SO) in Ei by auto.
      assert (Hd0 : 2 <= d <= 64) by exact (so_d _ SO).
      assert (Hk : 0 <= Z.log2 i < d - 1).
      { split; [apply Z.log2_nonneg |]. apply Z.log2_lt_pow2; [lia |]. unfold heap_size in Hi. lia. }
      pose proof (pow2_pos (Z.log2 i) ltac:(lia)) as P1.
      (* the node 2^k on the leftmost path is a decision node *)
      assert (D : decision sp (2 ^ Z.log2 i)).
      { destruct L as [R _]. eapply (reachable_above sp n _ false); eauto; [lia |].
        rewrite En. unfold heap_size.
        replace (d - 1) with (Z.log2 i + (d - 1 - Z.log2 i)) by lia.
        rewrite Z.pow_add_r by lia. rewrite <- (Z2Nat.id (d - 1 - Z.log2 i)) by lia.
        assert (Hm : (1 <= Z.to_nat (d - 1 - Z.log2 i))%nat) by lia.
        clear - Hm P1. induction Hm.
        - change (2 ^ Z.of_nat 1) with 2. rewrite Z.mul_comm. constructor.
        - rewrite Nat2Z.inj_succ, Z.pow_succ_r by lia.
          replace (2 ^ Z.log2 i * (2 * 2 ^ Z.of_nat m)) with (2 * (2 ^ Z.log2 i * 2 ^ Z.of_nat m)) by lia.
          now constructor. }
      pose proof (ti_ppg _ _ TI _ D) as NP. apply NP.
      rewrite (so_ppg _ SO).
      + rewrite Z.log2_pow2 by lia. exact Ei.
      + split; [lia |]. fold d. unfold heap_size. apply Z.pow_lt_mono_r; lia.
    - specialize (HA (N3 eq_refl)). destruct L as [R _].
      destruct (Z.eq_dec n 1) as [E | E]; [lia |]. pose proof (reachable_pos _ _ R).
      destruct (descends_pow 1 n ltac:(lia) ltac:(lia)) as [_ DP]. destruct DP as [bb Hb].
      + exists (Z.log2 n). pose proof (Z.log2_spec n ltac:(lia)) as LS.
        assert (1 <= Z.log2 n) by (apply Z.log2_le_pow2; [lia | change (2 ^ 1) with 2; lia]).
        split; auto. rewrite Z.pow_succ_r in LS by lia.
        apply Z.div_unique with (r := n - 2 ^ Z.log2 n); lia.
      + apply HA. eapply reachable_above; eauto. lia.
  Qed.

  Lemma leaf_kinds : forall i, leaf_node (t_split t') i -> 1 <= i < 2 ^ d /\
    ((i = n /\ n < heap_size d /\ a_to_prune a = true /\ ~ In n gidx) \/
     (i <> n /\ (n < heap_size d -> a_to_prune a = true -> i <> 2 * n /\ i <> 2 * n + 1))).
  Proof.
    intros i L. pose proof heap2 as Hh. pose proof pow_heap as Hp.
    destruct accept_eq as (TP & _).
    pose proof (outcomes b SO t TI m MO VE ML MR kf ti g r r' a ef ACC) as OC.
    assert (LS : zlen (t_split t') = heap_size d).
    { unfold t'. cbn [final_tree t_split]. unfold apply_moves_to_split_trees.
      rewrite !zlen_scatter_set.
      pose proof (st_lens b SO t TI m MO VE ML MR kf ti g) as (_ & _ & _ & _ & _ & _ & E).
      fold st in E. rewrite E. apply (ti_split _ _ TI). }
    split.
    { destruct L as [R _]. pose proof (reachable_pos _ _ R). apply reachable_lt in R; lia. }
    destruct OC as [O1 O2 O3 | OA OG CG OP O1 HV RO OE O2 O3 | OA OG PR O1 O2 O3].
    - fold st t' sp in O1. rewrite O1 in L.
      destruct MO as [MG MA CG GP HV RO EX | MG MA PR D1 | N1 N2 N3 N4 N5].
      + pose proof (can_grow_bounds b t n CG) as Hn. fold d in Hn.
        assert (Ha : a_acc a = false).
        { destruct (a_acc a); auto. specialize (O3 eq_refl). fold d n in O3. lia. }
        rewrite Ha, MG in TP. cbn [xorb] in TP.
        destruct (Z.eq_dec i n) as [E | E]; [left | right].
        * split; auto. split; [lia |]. split; auto.
          unfold gidx. rewrite (sent_indices b SO t TI m VE MG CG).
          intros Hin. apply in_map_iff in Hin. destruct Hin as (x & Ex & _).
          now apply (sent_not_node b t m CG) in Ex.
        * split; auto. intros _ _. split; intros ->; destruct L as [R _];
            apply (ND_child b t TI m CG) in R; auto; fold n; lia.
      + destruct PR as (Dn & _). fold n sp in Dn. right.
        pose proof (decision_lt _ _ Dn) as Hn. pose proof (ti_split _ _ TI) as SL. fold sp d in SL.
        assert (Ha : a_acc a = false).
        { destruct (a_acc a); auto. specialize (O3 eq_refl). fold d n in O3. lia. }
        rewrite Ha, MG in TP. cbn [xorb] in TP.
        split; [intros ->; now apply L | congruence].
      + fold n d in N1. right. split; [| lia].
        intros ->. exact (noop_leaf N1 L N2 N3 N4).
    - fold st t' in O1. fold n in O1.
      rewrite OA, OG in TP. cbn [xorb] in TP. right. split; [| congruence].
      intros ->. apply L. rewrite O1. pose proof (can_grow_bounds b t n CG) as Hn.
      split; [lia |]. rewrite (gsp_set b t TI m CG) by (fold n; lia). fold n.
      rewrite Z.eqb_refl. pose proof (rule_bound b SO t _ _ _ RO Hn). lia.
    - fold st t' in O1. fold n in O1. pose proof (psp_set b t m PR) as PS. fold n in PS.
      destruct PR as (Dn & Dl & Dr). fold n sp in Dn, Dl, Dr.
      pose proof (decision_lt _ _ Dn) as Hn. pose proof (ti_split _ _ TI) as SL. fold sp d in SL.
      rewrite OA, OG in TP. cbn [xorb] in TP. pose proof (proj1 Dn) as Hn1.
      destruct (Z.eq_dec i n) as [E | E]; [left | right].
      + split; auto. split; [lia |]. split; auto.
        unfold gidx. rewrite (nogrow_indices b SO t TI m VE) by auto.
        intros Hin. apply idx_leaf in Hin. destruct Hin as [[_ N] _]. auto.
      + split; auto. intros _ _. rewrite O1 in L.
        assert (Nn : ~ decision (scatter_set (t_split t) n 0) n).
        { intros [_ E0]. rewrite PS in E0 by lia. rewrite Z.eqb_refl in E0. lia. }
        split; intros ->; destruct L as [R _]; apply reachable_parent in R; try lia;
          destruct R as [_ R].
        * replace (2 * n / 2) with n in R by lia. auto.
        * replace ((2 * n + 1) / 2) with n in R by lia. auto.
  Qed.

  Lemma leaf_draw : forall i, leaf_node (t_split t') i ->
    zget f0 (t_leaf t') i = zget f0 nl i.
  Proof.
    intros i L. destruct (leaf_kinds i L) as (Hi & H).
    unfold t'. change (t_leaf (final_tree (split_bits b) st a)) with (a_leaf a).
    rewrite a_leaf_at by lia. assert (Hn : 0 <= n) by exact (n_nonneg b SO t m MO 0).
    destruct (a_to_prune a); cbn [andb]; auto.
    destruct (Z.ltb_spec n (heap_size d)); cbn [andb]; auto.
    destruct (Z.eqb_spec i (2 * n)), (Z.eqb_spec i (2 * n + 1)); cbn [orb]; auto;
      destruct H as [(-> & _) | (_ & H)]; try lia; now destruct (H H0 eq_refl).
  Qed.

  Lemma leaf_count : forall i, leaf_node (t_split t') i ->
    zget 0 (s_count_tree st) i = occ (t_idx t') i.
  Proof.
    intros i L. destruct (leaf_kinds i L) as (Hi & H). pose proof pow_heap as Hp. pose proof heap2.
    pose proof (t'_idx b SO t TI m MO VE ML MR kf ti g a) as E. fold st t' in E. fold d in E. fold n in E.
    fold gidx in E. rewrite E. assert (Hn : 0 <= n) by exact (n_nonneg b SO t m MO 0).
    unfold st, parallel_stage_tree. fold gidx.
    destruct (compute_count_trees gidx m (count_batch_size b)) as [ct c] eqn:Ec. cbn [s_count_tree].
    pose proof (gidx_range b SO t TI m MO VE 0) as GR. fold gidx in GR.
    pose proof (gidx_len b t TI m) as GL. fold gidx in GL.
    destruct (counts_spec b SO t m VE ML MR gidx ct c Ec) as (_ & C1 & C2).
    { intros j Hj. apply GR in Hj. lia. }
    { rewrite GL. apply (so_n _ SO). }
    fold n d in C1, C2.
    destruct H as [(-> & Hlt & Htp & NI) | (Ni & Hc)].
    - destruct (C1 ltac:(lia)) as (_ & _ & _ & C). rewrite C by lia. rewrite Z.eqb_refl.
      rewrite Htp, (proj2 (Z.ltb_lt _ _) Hlt). cbn [andb].
      rewrite occ_collapse_node by lia. rewrite (occ_0 gidx n) by auto. lia.
    - assert (C : zget 0 ct i = occ gidx i).
      { destruct (Z.lt_ge_cases n (heap_size d)).
        - destruct (Z.eq_dec n 0) as [E0 | E0].
          + exfalso. destruct MO as [MG MA CG GP HV RO EX | MG MA PR D1 | N1 N2 N3 N4 N5].
            * pose proof (can_grow_bounds b t n CG). lia.
            * destruct PR as [[H1 _] _]. fold n in H1. lia.
            * fold n d in N1. lia.
          + destruct (C1 ltac:(lia)) as (_ & _ & _ & C). rewrite C by lia.
            destruct (Z.eqb_spec i n); auto; lia.
        - apply C2; auto; lia. }
      rewrite C. destruct (a_to_prune a); cbn [andb]; auto.
      destruct (Z.ltb_spec n (heap_size d)) as [Hlt | Hge]; auto.
      destruct (Hc Hlt eq_refl) as [H1 H2]. symmetry. apply occ_collapse_other; auto.
  Qed.
End Leaf.
