(** The invariant holds in all reachable states. *)
From Coq Require Import ZArith List Bool Lia.
From Verif Require Import Base LemBase ModelJaxext ModelGrove ModelStep SpecTree
  SpecSampling SpecRange SpecForest Laws ProofTree ProofSampling ProofCategorical ProofRange
  ProofAggregate ProofRoute ProofMoves ProofStep SpecRun.
Import ListNotations.
Open Scope Z_scope.
Ltac Zify.zify_post_hook ::= Z.div_mod_to_equations.

Lemma zlen_enumerate : forall A (l : list A), zlen (enumerate l) = zlen l.
Proof.
  intros. unfold enumerate, zlen. rewrite combine_length, length_arange. unfold zlen. lia.
Qed.

Lemma map_snd_combine : forall A B (a : list A) (b : list B),
  length a = length b -> map snd (combine a b) = b.
Proof. induction a; destruct b; simpl; intros; try discriminate; auto. f_equal; auto. Qed.

Lemma map_fst_combine : forall A B (a : list A) (b : list B),
  length a = length b -> map fst (combine a b) = a.
Proof. induction a; destruct b; simpl; intros; try discriminate; auto. f_equal; auto. Qed.

Lemma map_snd_enumerate : forall A (l : list A), map snd (enumerate l) = l.
Proof. intros. apply map_snd_combine. rewrite length_arange. unfold zlen. lia. Qed.

Lemma In_enumerate : forall A (l : list A) i x, In (i, x) (enumerate l) -> In x l /\ 0 <= i < zlen l.
Proof.
  intros A l i x H. split; [now apply in_combine_r in H |].
  apply in_combine_l in H. unfold arange in H. apply in_map_iff in H.
  destruct H as (n & <- & H). apply in_seq in H. pose proof (zlen_nonneg _ l). lia.
Qed.

Lemma map2_map : forall A B (h : A -> B) C (f : A -> B -> C) l,
  map2 f l (map h l) = map (fun x => f x (h x)) l.
Proof. induction l; simpl; auto. now f_equal. Qed.

Section Run.
  Context {fo : fops} {zo : zoob} {foo : foob fo}.

  (** ** the trees after a step, one by one *)
  Section OneStep.
    Context {g : rng fo}.

    Definition move_of (b : bart) (k : key) (it : Z * tree) : move :=
      let ntree := zlen (trees b) in
      let key0 := KSplit k (1 + ntree) 0 in
      let '(gm, pm) := sample_moves_tree b (snd it) (KSplit k (1 + ntree) (1 + fst it)) in
      choose_move gm pm (r_unif key0 (fst it)) (r_unif key0 (ntree + fst it)).

    Lemma sample_moves_map : forall b k,
      sample_moves b k = map (move_of b k) (enumerate (trees b)).
    Proof. intros. unfold sample_moves. apply map_ext. intros [i t]. reflexivity. Qed.

    Definition stage_of (b : bart) (km ka : key) (it : Z * tree) : stage1 :=
      parallel_stage_tree b ka (fst it) (snd it) (move_of b km it).

    Lemma parallel_stage_map : forall b km ka,
      parallel_stage b (sample_moves b km) ka = map (stage_of b km ka) (enumerate (trees b)).
    Proof.
      intros. unfold parallel_stage. rewrite sample_moves_map, map2_map.
      apply map_ext. intros [i t]. reflexivity.
    Qed.

    Lemma sequential_chain : forall rbs mp ef ss r r' aa,
      sequential_stage rbs mp ef r ss = (r', aa) ->
      length aa = length ss /\
      (forall s a, In (s, a) (combine ss aa) -> exists r1 r2,
         accept_move_and_sample_leaves rbs mp ef r1 s = (r2, a)).
    Proof.
      induction ss as [| s ss IH]; intros r r' aa E; cbn [sequential_stage] in E.
      - injection E as <- <-. split; auto. intros s a [].
      - destruct (accept_move_and_sample_leaves rbs mp ef r s) as [r1 a] eqn:Ea.
        destruct (sequential_stage rbs mp ef r1 ss) as [r2 rest] eqn:Es.
        injection E as <- <-. destruct (IH _ _ _ Es) as [L C]. split; [cbn; lia |].
        intros s0 a0 [H | H]; [injection H as <- <-; eauto |]. now apply C.
    Qed.

    (** description of a step by the list of the trees with the result of the
        acceptance stage *)
    Definition ef_of (b : bart) : F := exp_factor (zlen (trees b)) (sigma2 b).
    Definition new_tree (b : bart) (km ka : key) (ita : Z * tree * stage2) : tree :=
      final_tree (split_bits b) (stage_of b km ka (fst ita)) (snd ita).

    Lemma sample_trees_list : forall b k,
      let km := KSplit k 2 1 in
      let ka := KSplit k 2 0 in
      let b' := sample_trees b k in
      exists l : list (Z * tree * stage2),
        map fst l = enumerate (trees b) /\
        (forall it a, In (it, a) l -> exists r1 r2,
           accept_move_and_sample_leaves (resid_batch_size b) (min_points_per_leaf b) (ef_of b)
             r1 (stage_of b km ka it) = (r2, a)) /\
        (resid b', map snd l) = sequential_stage (resid_batch_size b) (min_points_per_leaf b)
           (ef_of b) (resid b) (map (fun ita => stage_of b km ka (fst ita)) l) /\
        trees b' = map (new_tree b km ka) l /\
        grow_prop_count b' = count_nonzero (map (fun ita => m_grow (move_of b km (fst ita))) l) /\
        prune_prop_count b' = count_nonzero (map (fun ita =>
           m_allowed (move_of b km (fst ita)) && negb (m_grow (move_of b km (fst ita)))) l) /\
        grow_acc_count b' = count_nonzero (map (fun ita =>
           a_acc (snd ita) && m_grow (move_of b km (fst ita))) l) /\
        prune_acc_count b' = count_nonzero (map (fun ita =>
           a_acc (snd ita) && negb (m_grow (move_of b km (fst ita)))) l) /\
        ratios b' = match ratios b with
                    | None => None
                    | Some _ => Some (map (fun ita => a_ratios (snd ita)) l)
                    end.
    Proof.
      intros b k km ka b'. unfold b', sample_trees. fold km ka.
      unfold accept_moves_and_sample_leaves. rewrite parallel_stage_map, sample_moves_map.
      fold (ef_of b). set (its := enumerate (trees b)).
      destruct (sequential_stage (resid_batch_size b) (min_points_per_leaf b) (ef_of b) (resid b)
                  (map (stage_of b km ka) its)) as [r' aa] eqn:E.
      destruct (sequential_chain _ _ _ _ _ _ _ E) as [L C]. rewrite map_length in L.
      exists (combine its aa).
      cbn [trees resid grow_prop_count prune_prop_count grow_acc_count prune_acc_count ratios].
      assert (M1 : map fst (combine its aa) = its) by (apply map_fst_combine; lia).
      assert (M2 : map snd (combine its aa) = aa) by (apply map_snd_combine; lia).
      assert (MM : forall A (f : Z * tree -> stage2 -> A),
        map2 f its aa = map (fun ita => f (fst ita) (snd ita)) (combine its aa)).
      { intros A f. clear. revert aa. induction its; destruct aa; simpl; auto. now f_equal. }
      assert (MF : forall A (f : Z * tree -> A),
        map f its = map (fun ita => f (fst ita)) (combine its aa)).
      { intros A f. rewrite <- M1 at 1. now rewrite map_map. }
      assert (MC : forall A (f : stage2 -> move -> A),
        map2 f aa (map (move_of b km) its) =
        map (fun ita => f (snd ita) (move_of b km (fst ita))) (combine its aa)).
      { intros A f. clear - L. revert aa L. induction its; destruct aa; simpl; intros; auto;
        try discriminate. now f_equal; auto. }
      split; auto. split.
      { intros it a H. apply C.
        clear - H. revert aa H. induction its; destruct aa; simpl; intros H; auto.
        destruct H as [H | H]; [left; congruence | right; auto]. }
      split.
      { rewrite M2, <- E. f_equal. apply MF. }
      split.
      { rewrite map2_map_l, MM. reflexivity. }
      rewrite !map_map, !MC, !MF. repeat split.
      destruct (ratios b); auto. now rewrite <- M2 at 1; rewrite map_map.
    Qed.

    Lemma step_fields : forall b k, let b' := step b k in
      p_nonterminal b' = p_nonterminal b /\ p_propose_grow b' = p_propose_grow b /\
      sigma2_alpha b' = sigma2_alpha b /\ sigma2_beta b' = sigma2_beta b /\
      max_split b' = max_split b /\ split_bits b' = split_bits b /\ y b' = y b /\ X b' = X b /\
      min_points_per_leaf b' = min_points_per_leaf b /\
      resid_batch_size b' = resid_batch_size b /\ count_batch_size b' = count_batch_size b /\
      trees b' = trees (sample_trees b (KSplit k 2 1)) /\
      resid b' = resid (sample_trees b (KSplit k 2 1)) /\
      grow_prop_count b' = grow_prop_count (sample_trees b (KSplit k 2 1)) /\
      prune_prop_count b' = prune_prop_count (sample_trees b (KSplit k 2 1)) /\
      grow_acc_count b' = grow_acc_count (sample_trees b (KSplit k 2 1)) /\
      prune_acc_count b' = prune_acc_count (sample_trees b (KSplit k 2 1)).
    Proof.
      intros b k b'. unfold b', step, sample_sigma, set_sigma2.
      cbn [p_nonterminal p_propose_grow sigma2_alpha sigma2_beta max_split split_bits y X
        min_points_per_leaf resid_batch_size count_batch_size trees resid grow_prop_count
        prune_prop_count grow_acc_count prune_acc_count].
      unfold sample_trees, accept_moves_and_sample_leaves.
      destruct (sequential_stage _ _ _ _ _). cbn. repeat split.
    Qed.
  End OneStep.

  (** ** the invariant of the whole state *)
  Record inv (b : bart) : Prop := {
    in_setup : setup_ok b;
    in_trees : forall t, In t (trees b) -> tree_inv b t;
    in_resid : zlen (resid b) = zlen (X b)
  }.

  (** [setup_ok] and [tree_inv] depend on the settings only. *)
  Definition same_settings (b b' : bart) : Prop :=
    p_nonterminal b' = p_nonterminal b /\ p_propose_grow b' = p_propose_grow b /\
    max_split b' = max_split b /\ split_bits b' = split_bits b /\ X b' = X b /\
    min_points_per_leaf b' = min_points_per_leaf b /\
    resid_batch_size b' = resid_batch_size b /\ count_batch_size b' = count_batch_size b.

  Lemma setup_same : forall b b', same_settings b b' -> setup_ok b -> setup_ok b'.
  Proof.
    intros b b' (E1 & E2 & E3 & E4 & E5 & E6 & E7 & E8) [].
    constructor; unfold bd, bp; rewrite ?E1, ?E2, ?E3, ?E4, ?E5, ?E6, ?E7, ?E8; auto.
  Qed.

  Lemma tree_same : forall b b' t, same_settings b b' -> tree_inv b t -> tree_inv b' t.
  Proof.
    intros b b' t (E1 & E2 & E3 & E4 & E5 & E6 & E7 & E8) [].
    constructor; unfold bd, bp in *; rewrite ?E1, ?E2, ?E3, ?E4, ?E5, ?E6, ?E7, ?E8; auto.
  Qed.

  Section Preserve.
    Context {fl : flaws fo} {g : rng fo} {rl : rlaws g}.

    Lemma move_of_cases : forall b k it, setup_ok b -> tree_inv b (snd it) ->
      let t := snd it in let m := move_of b k it in
      move_ok b t m /\ var_ext b t (m_var_tree m) /\
      m_left m = 2 * m_node m /\ m_right m = 2 * m_node m + 1 /\
      m_num_growable m = count_nonzero (growable_leaves (t_split t) (t_aff t)) /\
      (m_grow m = true -> exists i, can_grow b t i) /\
      ((exists i, can_grow b t i) -> ~ decision (t_split t) 1 -> m_grow m = true) /\
      (m_allowed m = false <-> (forall i, ~ can_grow b t i) /\ ~ decision (t_split t) 1).
    Proof.
      intros b k [i t] SO TI. cbn [snd] in *. unfold move_of. cbn [fst snd].
      set (ku := KSplit k (1 + zlen (trees b)) 0).
      pose proof (move_cases b SO t TI (KSplit k (1 + zlen (trees b)) (1 + i))
        (r_unif ku i) (r_unif ku (zlen (trees b) + i)) (rl_unif_ge _ _) (rl_unif_lt _ _)) as H.
      destruct (sample_moves_tree b t _) as [gm pm]. exact H.
    Qed.

    Lemma new_tree_inv : forall b km ka it a r1 r2, setup_ok b -> tree_inv b (snd it) ->
      accept_move_and_sample_leaves (resid_batch_size b) (min_points_per_leaf b) (ef_of b)
             r1 (stage_of b km ka it) = (r2, a) ->
      tree_inv b (new_tree b km ka (it, a)).
    Proof.
      intros b km ka it a r1 r2 SO TI E.
      destruct (move_of_cases b km it SO TI) as (H1 & H2 & H3 & H4 & _).
      exact (tree_step b SO (snd it) TI (move_of b km it) H1 H2 H3 H4 ka (fst it) g r1 r2 a _ E).
    Qed.

    Lemma sequential_zlen : forall b km ka its r r' aa, setup_ok b ->
      (forall it, In it its -> tree_inv b (snd it)) ->
      sequential_stage (resid_batch_size b) (min_points_per_leaf b) (ef_of b) r
        (map (stage_of b km ka) its) = (r', aa) ->
      zlen r = zlen (X b) -> zlen r' = zlen (X b).
    Proof.
      intros b km ka its r r' aa SO. revert r r' aa.
      induction its as [| it its IH]; intros r r' aa TI E Hr; cbn [map sequential_stage] in E.
      - congruence.
      - destruct (accept_move_and_sample_leaves _ _ _ r _) as [r1 a] eqn:Ea.
        destruct (sequential_stage _ _ _ r1 _) as [r2 rest] eqn:Es.
        injection E as <- <-. apply (IH r1 r2 rest); auto; [intros; apply TI; now right |].
        assert (T : tree_inv b (snd it)) by (apply TI; now left).
        destruct (move_of_cases b km it SO T) as (H1 & H2 & H3 & H4 & _).
        destruct (acc_lens b SO (snd it) T (move_of b km it) H1 H2 H3 H4 ka (fst it) g r r1 a _ Ea)
          as [_ L]. lia.
    Qed.

    Lemma In_fst_enum : forall b (l : list (Z * tree * stage2)) it a,
      map fst l = enumerate (trees b) -> In (it, a) l -> In (snd it) (trees b).
    Proof.
      intros b l [i t] a M H. apply (in_map fst) in H. rewrite M in H. cbn [fst] in H.
      apply In_enumerate in H. tauto.
    Qed.

    Lemma step_same : forall b k, same_settings b (step b k).
    Proof.
      intros b k. destruct (step_fields b k) as (E1 & E2 & E3 & E4 & E5 & E6 & E7 & E8 & E9 & E10 & E11 & _).
      repeat split; auto.
    Qed.

    Theorem inv_step : forall b k, inv b -> inv (step b k).
    Proof.
      intros b k I. pose proof (step_same b k) as S.
      destruct (step_fields b k) as (_ & _ & _ & _ & _ & _ & _ & EX & _ & _ & _ & ET & ER & _).
      destruct (sample_trees_list b (KSplit k 2 1)) as (l & M & A & SQ & T & _). cbv zeta in *.
      constructor.
      - eapply setup_same; eauto. apply I.
      - intros t Ht. apply (tree_same b); auto.
        rewrite ET, T in Ht. apply in_map_iff in Ht. destruct Ht as ([it a] & <- & Hin).
        destruct (A it a Hin) as (r1 & r2 & E).
        eapply new_tree_inv; eauto; [apply I |]. apply I. eapply In_fst_enum; eauto.
      - rewrite ER, EX. rewrite <- (map_map fst) in SQ. symmetry in SQ.
        eapply sequential_zlen in SQ; eauto; try apply I.
        rewrite M. intros [i t] Hin. apply In_enumerate in Hin. now apply I.
    Qed.
  End Preserve.

  (** ** the initial state *)

  Lemma entry_full0 : forall n i, entry (full n 0) i = 0.
  Proof. intros. change (entry (full n 0) i) with (zget 0 (full n 0) i). apply zget_full_same. Qed.

  Lemma no_decision_full0 : forall n i, ~ decision (full n 0) i.
  Proof. intros n i [_ D]. rewrite entry_full0 in D. auto. Qed.

  Lemma leaf_full0 : forall n i, leaf_node (full n 0) i -> i = 1.
  Proof.
    intros n i [R _]. destruct R as [| i R D | i R D]; auto; now apply no_decision_full0 in D.
  Qed.

  Variable s : settings.
  Hypothesis OK : settings_ok s.
  Let b0 := init_of s.

  Lemma bd_init : bd b0 = depth_of s.
  Proof. unfold bd, b0, init_of, init, depth_of. cbn [p_nonterminal]. now rewrite zlen_app. Qed.

  Lemma setup_init : setup_ok b0.
  Proof.
    pose proof (ok_depth _ OK) as Hd. pose proof bd_init as Eb. unfold depth_of in Eb.
    assert (Hh : heap_size (bd b0) = 2 ^ (bd b0 - 1)) by reflexivity.
    assert (Hp : 1 <= heap_size (bd b0)) by (apply heap_pos; lia).
    assert (G : forall i, 0 <= i < heap_size (bd b0) ->
      zget f0 (p_propose_grow b0) i =
      zget f0 (p_nonterminal b0) (zget 0 (tree_depths (heap_size (bd b0))) i)).
    { intros i Hi. unfold b0, init_of, init. cbn [p_propose_grow p_nonterminal].
      change (zlen (i_p_nonterminal s ++ [f0])) with (bd b0). rewrite <- Hh.
      rewrite (zget_map _ _ _ 0) by (rewrite zlen_tree_depths; lia).
      assert (0 <= zget 0 (tree_depths (heap_size (bd b0))) i < bd b0).
      { destruct (Z.eq_dec i 0) as [-> | N].
        - rewrite zget_tree_depths_0; lia.
        - rewrite zget_tree_depths by lia. split; [apply Z.log2_nonneg |].
          assert (Z.log2 i < bd b0 - 1) by (apply Z.log2_lt_pow2; lia). lia. }
      apply gather_in. unfold bd, b0, init_of, init in H. cbn [p_nonterminal] in H. auto. }
    constructor.
    - lia.
    - apply (ok_p _ OK).
    - apply (ok_bits _ OK).
    - intros v. change (max_split b0) with (i_max_split s). change (split_bits b0) with (i_split_bits s).
      assert (0 < 2 ^ i_split_bits s) by (apply pow2_pos; pose proof (ok_bits _ OK); lia).
      unfold entry. destruct (nth_in_or_default (Z.to_nat v) (i_max_split s) 0) as [H' | ->]; [| lia].
      now apply (ok_max_split _ OK).
    - change (max_split b0) with (i_max_split s). change (split_bits b0) with (i_split_bits s).
      change (min_points_per_leaf b0) with (i_min_points s).
      destruct (ok_overflow _ OK) as [H' | H']; [left | now right].
      intros v. unfold entry.
      destruct (nth_in_or_default (Z.to_nat v) (i_max_split s) 0) as [I | ->]; [now apply H' |].
      assert (2 ^ 8 <= 2 ^ i_split_bits s)
        by (apply Z.pow_le_mono_r; pose proof (ok_bits _ OK); lia). change (2 ^ 8) with 256 in *. lia.
    - change (X b0) with (i_X s). rewrite (ok_n _ OK). apply (ok_n_max _ OK).
    - unfold b0 at 1, init_of, init. cbn [p_propose_grow]. rewrite zlen_map.
      change (zlen (i_p_nonterminal s ++ [f0])) with (bd b0). rewrite zlen_tree_depths; lia.
    - intros i Hi. rewrite G by lia. now rewrite zget_tree_depths by lia.
    - rewrite G by lia. now rewrite zget_tree_depths_0 by lia.
    - intros x Hx. unfold b0, init_of, init in Hx. cbn [p_nonterminal] in Hx.
      apply in_app_or in Hx. destruct Hx as [Hx | [<- | []]]; auto. now apply (ok_p_nonterminal _ OK).
    - change (count_batch_size b0) with (i_count_batch s). pose proof (ok_cbs _ OK).
      destruct (i_count_batch s); auto.
    - change (resid_batch_size b0) with (i_resid_batch s). pose proof (ok_rbs _ OK).
      destruct (i_resid_batch s); auto.
  Qed.

  Lemma occ_full : forall A (l : list A), occ (map (fun _ => 1) l) 1 = zlen l.
  Proof.
    induction l; cbn [map]; [reflexivity |]. rewrite occ_cons, IHl, zlen_cons, Z.eqb_refl. reflexivity.
  Qed.

  Lemma tree_init : forall t, In t (trees b0) -> tree_inv b0 t.
  Proof.
    intros t Ht. unfold b0, init_of, init in Ht. cbn [trees] in Ht. apply In_full in Ht.
    change (zlen (i_p_nonterminal s ++ [f0])) with (bd b0) in Ht.
    pose proof (ok_depth _ OK) as Hd. pose proof bd_init as Eb. unfold depth_of in Eb.
    assert (Hh : 2 <= heap_size (bd b0)).
    { unfold heap_size. change 2 with (2 ^ 1). apply Z.pow_le_mono_r; lia. }
    assert (Hid : t_idx t = map (fun _ => 1) (X b0)).
    { rewrite Ht. cbn [t_idx]. change (X b0) with (i_X s).
      unfold full. rewrite <- (ok_n _ OK). unfold zlen. rewrite Nat2Z.id.
      generalize (i_X s). induction l; simpl; auto. now f_equal. }
    assert (Hsp : t_split t = full (heap_size (bd b0)) 0) by (rewrite Ht; reflexivity).
    assert (Hva : t_var t = full (heap_size (bd b0)) 0) by (rewrite Ht; reflexivity).
    constructor; try rewrite Hsp; try rewrite Hva.
    - rewrite Ht. cbn [t_leaf]. rewrite zlen_make_tree; lia.
    - rewrite zlen_full; lia.
    - rewrite zlen_full; lia.
    - apply entry_full0.
    - apply entry_full0.
    - intros i D. now apply no_decision_full0 in D.
    - intros i. rewrite entry_full0. pose proof (minimal_unsigned_bits_ge8 (bp b0 - 1)).
      split; [lia |]. apply pow2_pos. lia.
    - intros i D. now apply no_decision_full0 in D.
    - intros i D. now apply no_decision_full0 in D.
    - rewrite Hid. apply map_ext. intros x. symmetry.
      pose proof (traverse_leaf (bd b0) ltac:(lia) x (full (heap_size (bd b0)) 0)
        (full (heap_size (bd b0)) 0)) as L.
      rewrite zlen_full in L by lia. specialize (L eq_refl eq_refl).
      now apply leaf_full0 in L.
    - change (min_points_per_leaf b0) with (i_min_points s).
      destruct (i_min_points s) as [m |] eqn:Em; [| rewrite Ht; cbn [t_aff]; reflexivity].
      assert (Ha : t_aff t = Some (scatter_set (make_tree (bd b0 - 1) false) 1 (2 * m <=? zlen (i_y s))))
        by (rewrite Ht; reflexivity).
      eexists. split; [exact Ha |].
      assert (zlen (make_tree (bd b0 - 1) false) = heap_size (bd b0)) by (apply zlen_make_tree; lia).
      rewrite zlen_scatter_set. split; [lia |].
      intros i L Hi. apply leaf_full0 in L. subst i.
      rewrite zget_scatter_set by lia. rewrite Z.eqb_refl. rewrite Hid, occ_full.
      change (X b0) with (i_X s). now rewrite (ok_n _ OK).
    - intros m Em D. now apply no_decision_full0 in D.
  Qed.

  Lemma inv_init : inv b0.
  Proof.
    constructor; [apply setup_init | apply tree_init |].
    change (resid b0) with (i_y s). change (X b0) with (i_X s). symmetry. apply (ok_n _ OK).
  Qed.

  Context {fl : flaws fo}.

  Theorem reached_inv : forall b, reached s b -> inv b.
  Proof. intros b H. induction H; [apply inv_init |]. now apply inv_step. Qed.

  (** constant fields *)
  Theorem reached_fields : forall b, reached s b ->
    X b = i_X s /\ y b = i_y s /\ max_split b = i_max_split s /\
    min_points_per_leaf b = i_min_points s /\ bd b = depth_of s /\
    p_nonterminal b = p_nonterminal b0 /\ p_propose_grow b = p_propose_grow b0 /\
    zlen (trees b) = zlen (trees b0) /\ split_bits b = i_split_bits s /\
    sigma2_alpha b = i_sigma2_alpha s /\ sigma2_beta b = i_sigma2_beta s /\
    resid_batch_size b = i_resid_batch s /\ count_batch_size b = i_count_batch s.
  Proof.
    intros b H. induction H as [| b g k rl H IH].
    - repeat split. apply bd_init.
    - destruct IH as (I1 & I2 & I3 & I4 & I5 & I6 & I7 & I8 & I9 & I10 & I11 & I12 & I13).
      destruct (step_fields b k) as (E1 & E2 & E3 & E4 & E5 & E6 & E7 & E8 & E9 & E10 & E11 & ET & _).
      repeat split; try congruence; unfold bd in *; try congruence.
      rewrite ET. destruct (sample_trees_list b (KSplit k 2 1)) as (l & M & _ & _ & T & _).
      cbv zeta in T. rewrite T, zlen_map. rewrite <- (zlen_map _ _ fst l), M, zlen_enumerate. auto.
  Qed.
End Run.
