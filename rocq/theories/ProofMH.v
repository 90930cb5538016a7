(** The Metropolis-Hastings step of one tree within a step of the chain. *)
From Coq Require Import ZArith List Bool Lia Reals Lra Permutation.
From Verif Require Import Base LemBase ModelJaxext ModelGrove ModelStep SpecTree
  SpecSampling SpecRange SpecForest SpecRun SpecPosterior SpecProposal SpecExact SpecMH Laws ProofTree
  ProofSampling ProofCategorical ProofRange ProofAggregate ProofRoute ProofMoves ProofStep ProofRun ProofForest
  ProofLeaf ProofNormal ProofDraw ProofExact ProofGauss ProofProposal ProofMarginal ProofTransition ProofRatio.
Import ListNotations.
Open Scope Z_scope.
Ltac Zify.zify_post_hook ::= Z.div_mod_to_equations.

Lemma prod_perm : forall l l' : list R, Permutation l l' ->
  fold_right Rmult 1%R l = fold_right Rmult 1%R l'.
Proof. intros l l' H. induction H; cbn; try congruence. ring. Qed.

Lemma values_at_other : forall A n i idx (vals : list A), i <> n -> i <> 2 * n -> i <> 2 * n + 1 ->
  values_at (map (collapse n) idx) vals i = values_at idx vals i.
Proof.
  intros A n i. induction idx as [| j idx IH]; intros vals H1 H2 H3; [reflexivity |].
  destruct vals as [| v vals]; [reflexivity |].
  cbn [map]. rewrite !values_at_cons, IH by auto. unfold collapse.
  destruct (Z.eqb_spec j (2 * n)), (Z.eqb_spec j (2 * n + 1)); cbn [orb]; try lia;
    destruct (Z.eqb_spec j i), (Z.eqb_spec n i); try lia; auto.
Qed.

Lemma prod_pos : forall (f : Z -> R) l, (forall i, (0 < f i)%R) -> (0 < fold_right Rmult 1 (map f l))%R.
Proof.
  intros f l H. induction l as [| a l IH]; cbn; [lra |]. apply Rmult_lt_0_compat; auto.
Qed.

(** the prior is positive if the rules have positive probability *)
Lemma tree_prior_pos : forall (p : Z -> R) w d var sp,
  (forall a v c, (0 < w a v c)%R) ->
  (forall j, 0 <= j < d - 1 -> (0 < p j < 1)%R) -> p (d - 1) = 0%R ->
  forall levels ab i, Z.of_nat (length ab) + Z.of_nat levels = d - 1 ->
  (0 < tree_prior p w ab (decode tt [] var sp levels i))%R.
Proof.
  intros p w d var sp Hw P1 P2. induction levels as [| levels IH]; intros ab i H; cbn [decode tree_prior].
  - replace (Z.of_nat (length ab)) with (d - 1) by lia. rewrite P2. lra.
  - pose proof (P1 (Z.of_nat (length ab)) ltac:(lia)).
    destruct (entry sp i =? 0); cbn [tree_prior]; [lra |].
    repeat apply Rmult_lt_0_compat; auto; try lra; apply IH; cbn [length]; lia.
Qed.

Section MH.
  Context {zo : zoob} {foo : foob rops} {g : rng rops} {rl : rlaws g}.
  Variables (s : @settings rops) (b : @bart rops).
  Hypothesis OK : settings_ok s.
  Hypothesis RE : reached s b.
  Hypothesis S2 : (0 < sigma2 b)%R.
  Variables (k : key) (m : nat) (t t' : @tree rops) (mv : @move rops).
  Let km := KSplit (KSplit k 2 1) 2 1.
  Let ka := KSplit (KSplit k 2 1) 2 0.
  Hypothesis Ht : nth_error (trees b) m = Some t.
  Hypothesis Ht' : nth_error (trees (step b k)) m = Some t'.
  Hypothesis Hm : nth_error (sample_moves b km) m = Some mv.
  Let d := depth_of s.
  Let n := m_node mv.
  Hypothesis NB : n < 2 ^ (d - 1).
  Hypothesis NZ : entry (snd (big_rules t mv)) (m_node mv) <> 0.
  Let small := small_rules t mv.
  Let big := big_rules t mv.
  Let others := firstn m (trees (step b k)) ++ skipn (S m) (trees b).
  Let data := combine (points_of s) (i_y s).
  Let ntree := IZR (zlen (trees b)).
  Let I := reached_inv s OK b RE.
  Let SO := in_setup _ I.
  Let TI : tree_inv b t := in_trees _ I t (nth_error_In _ _ Ht).

  Lemma mv_eq : mv = move_of b km (Z.of_nat m, t).
  Proof.
    pose proof Hm as H.
    rewrite sample_moves_map, nth_error_map, (nth_error_enumerate _ _ _ _ Ht) in H.
    cbn [option_map] in H. now injection H.
  Qed.

  Lemma mv_facts : move_ok b t mv /\ var_ext b t (m_var_tree mv) /\
      m_left mv = 2 * m_node mv /\ m_right mv = 2 * m_node mv + 1 /\
      m_num_growable mv = count_nonzero (growable_leaves (t_split t) (t_aff t)).
  Proof.
    rewrite mv_eq.
    destruct (move_of_cases b km (Z.of_nat m, t) SO TI) as (H1 & H2 & H3 & H4 & H5 & _). auto.
  Qed.

  (** the larger tree has a decision at the node, if the range of cutpoints does
      not overflow *)
  Lemma rule_present : (forall v, entry (max_split b) v < 2 ^ split_bits b - 1) ->
    m_node mv < heap_size (bd b) -> entry (snd (big_rules t mv)) (m_node mv) <> 0.
  Proof.
    clear NZ. intros W NB1. destruct mv_facts as (MO & _). unfold big_rules.
    pose proof (ti_split _ _ TI) as LS.
    destruct MO as [MG MA CG GP HV RO EX | MG MA PR D1 | N1 N2 N3 N4 N5]; [| | lia]; rewrite MG; cbn [snd].
    - pose proof (can_grow_bounds b t _ CG) as Hn. rewrite entry_put, Z.eqb_refl by lia.
      destruct RO as [RO | SP].
      + pose proof (rule_bound b SO t _ _ _ RO Hn). lia.
      + exfalso. specialize (W (m_grow_var mv)).
        rewrite (spill_max b SO t TI (m_node mv) (m_grow_var mv)) in W;
          [lia | apply CG | lia | apply SP | apply SP].
    - apply PR.
  Qed.

  (** otherwise the move is rejected *)
  Lemma overflow_rejected : entry (snd (big_rules t mv)) (m_node mv) = 0 ->
    structure d (t_var t') (t_split t') = structure d (t_var t) (t_split t).
  Proof.
    clear NZ NB S2. intros Z0.
    destruct (step_tree s b OK RE g rl k m t t' Ht Ht') as (r1 & r2 & a & Ea & Et & _).
    fold km ka in Ea, Et. pose proof mv_eq as EM. destruct mv_facts as (MO & VE & ML & MR & _).
    assert (ES : stage_of b km ka (Z.of_nat m, t) = parallel_stage_tree b ka (Z.of_nat m) t mv).
    { unfold stage_of. cbn [fst snd]. now rewrite <- EM. }
    rewrite ES in Ea. change (ef_of b) with (exp_factor (zlen (trees b)) (sigma2 b)) in Ea.
    pose proof (outcomes b SO t TI mv MO VE ML MR ka (Z.of_nat m) g r1 r2 a _ Ea) as OC.
    set (st := parallel_stage_tree b ka (Z.of_nat m) t mv) in *.
    assert (EN : new_tree b km ka (Z.of_nat m, t, a) = final_tree (split_bits b) st a).
    { unfold new_tree. cbn [fst snd]. now rewrite ES. }
    assert (EV : t_var t' = m_var_tree mv).
    { rewrite Et, EN. apply t'_var; auto. }
    pose proof VE as (_ & _ & _ & V4). pose proof (ti_split _ _ TI) as LS. unfold big_rules in Z0.
    destruct OC as [O1 O2 O3 | OA OG CG OP O1 HV RO OE O2 O3 | OA OG PR O1 O2 O3].
    - fold st in O1. unfold structure. rewrite EV, Et, EN, O1. apply decode_ext; auto.
      pose proof (in_setup _ I). pose proof (so_d _ H).
      destruct (reached_fields s b RE) as (_ & _ & _ & _ & ED & _). unfold d. lia.
    - exfalso. rewrite OG in Z0. cbn [snd] in Z0. pose proof (can_grow_bounds b t _ CG) as Hn.
      rewrite entry_put, Z.eqb_refl in Z0 by lia.
      pose proof (rule_bound b SO t _ _ _ RO Hn). lia.
    - exfalso. rewrite OG in Z0. cbn [snd] in Z0. destruct PR as ((_ & NN) & _). contradiction.
  Qed.

  Lemma ed : bd b = d.
  Proof. destruct (reached_fields s b RE) as (_ & _ & _ & _ & ED & _). exact ED. Qed.
  Lemma NB' : m_node mv < heap_size (bd b).
  Proof. rewrite ed. exact NB. Qed.

  Lemma others_inv : forall t0, In t0 others -> tree_inv b t0.
  Proof.
    intros t0 H0. unfold others in H0. apply in_app_or in H0. destruct H0 as [H0 | H0].
    - pose proof (in_trees _ (inv_step b k I) t0) as TT.
      apply (tree_same (step b k) b); [| apply TT].
      + destruct (step_same b k) as (E1 & E2 & E3 & E4 & E5 & E6 & E7 & E8). repeat split; auto.
      + rewrite <- (firstn_skipn m). apply in_or_app. now left.
    - apply (in_trees _ I). rewrite <- (firstn_skipn (S m)). apply in_or_app. now right.
  Qed.

  Section Resid.
    Variable r1 : list (@F rops).
    Hypothesis L1 : zlen r1 = zlen (X b).
    Hypothesis HR : forall j, 0 <= j < zlen (X b) ->
        (zget 0%R r1 j + tval t j = zget 0%R (y b) j - forest_at others j)%R.

    Lemma resid_at : forall (tr : list Z * list Z) i,
      zlen (fst tr) = heap_size d -> zlen (snd tr) = heap_size d ->
      values_at (map (fun x => traverse_tree x (fst tr) (snd tr)) (X b)) (partial_resid t r1) i =
      leaf_residuals d others (fst tr) (snd tr) i data.
    Proof.
      intros tr i H1 H2. destruct (reached_fields s b RE) as (EX & EY & _ & _ & ED & _).
      unfold data. rewrite <- values_at_spec. unfold points_of. rewrite <- EX. f_equal.
      - rewrite map_map. apply map_ext. intros x. symmetry.
        pose proof (so_d _ SO) as Hd. rewrite ed in Hd. apply leaf_of_traverse; [lia | auto | auto].
      - assert (LI : zlen (t_idx t) = zlen (X b)) by (rewrite (ti_idx _ _ TI); apply zlen_map).
        pose proof (ok_n _ OK) as NY. rewrite <- EX in NY.
        unfold partial_resid. apply (list_ext _ 0%R).
        + rewrite !zlen_map2, !zlen_map. rlia.
        + intros j Hj. rewrite zlen_map2, zlen_map in Hj.
          assert (Hj' : 0 <= j < zlen (X b)) by rlia.
          rewrite (zget_map2 _ _ _ _ _ 0%R 0%R) by (rewrite ?zlen_map; rlia).
          rewrite (zget_map _ _ _ 0) by lia. fold (tval t j). rewrite HR by auto.
          rewrite (forest_at_predict b) by (auto; apply others_inv). rewrite EY.
          rewrite (zget_map2 _ _ _ _ _ 0%R (gather zmode [])) by (rewrite ?zlen_map; rlia).
          rewrite (zget_map _ _ _ []) by auto. now rewrite ed.
    Qed.
  End Resid.

  Let pts := points_of s.
  Let mp := i_min_points s.
  Let rest (tr : list Z * list Z) (i : Z) : list R := leaf_residuals d others (fst tr) (snd tr) i data.

  Lemma pts_eq : map (gather zmode) (X b) = pts.
  Proof. destruct (reached_fields s b RE) as (EX & _). unfold pts, points_of. now rewrite EX. Qed.
  Lemma mp_eq : min_points_per_leaf b = mp.
  Proof. destruct (reached_fields s b RE) as (_ & _ & _ & E & _). exact E. Qed.

  Lemma mh_parts : exists q : R * R,
    (forall l, ratios (step b k) = Some l -> nth_error l m = Some q) /\
    (forall p w, (forall j, 0 <= j < d -> p j = zget 0%R (p_nonterminal b) j) ->
       (forall j, 0 <= j < d - 1 -> (0 < p j < 1)%R) -> p (d - 1) = 0%R ->
       (0 < prior d p w small)%R -> (0 < prior d p w big)%R ->
       let v := entry (fst big) n in let c := entry (snd big) n in
       (0 < q_grow d pts mp p w small n v c)%R /\ (0 < q_prune d pts mp big)%R /\
       fst q = ln (prior d p w big * q_prune d pts mp big /
                   (prior d p w small * q_grow d pts mp p w small n v c))) /\
    snd q = ln (post_const ntree (sigma2 b) (rest big (2 * n)) *
                post_const ntree (sigma2 b) (rest big (2 * n + 1)) /
                post_const ntree (sigma2 b) (rest small n)) /\
    exists acc : bool,
      acc = Rleb (ln (1 + - r_unif (rng := g) (KSplit km (1 + zlen (trees b)) 0) (zlen (trees b) + Z.of_nat m)))
              (if m_grow mv then fst q + snd q else - (fst q + snd q)) &&
            match mp with
            | None => true
            | Some c => (c <=? points_in d pts (fst big) (snd big) (2 * n)) &&
                        (c <=? points_in d pts (fst big) (snd big) (2 * n + 1))
            end /\
      structure d (t_var t') (t_split t') =
        if acc then structure_of d (proposed_rules t mv) else structure d (t_var t) (t_split t).
  Proof.
    destruct (step_tree s b OK RE g rl k m t t' Ht Ht') as (r1 & r2 & a & Ea & Et & L1 & RT & HR).
    fold km ka in Ea, Et. fold others in HR.
    exists (a_ratios a). split; [exact RT |].
    pose proof mv_eq as EM. pose proof NB' as NB1.
    destruct mv_facts as (MO & VE & ML & MR & NG).
    assert (ES : stage_of b km ka (Z.of_nat m, t) = parallel_stage_tree b ka (Z.of_nat m) t mv).
    { unfold stage_of. cbn [fst snd]. now rewrite <- EM. }
    rewrite ES in Ea. change (ef_of b) with (exp_factor (zlen (trees b)) (sigma2 b)) in Ea.
    set (st := parallel_stage_tree b ka (Z.of_nat m) t mv) in *.
    set (gidx := apply_grow_to_indices mv (t_idx t) (X b)).
    pose proof (NR b t TI mv MO VE NB1 NZ) as Hn. fold n in Hn.
    destruct (st_counts b SO t TI mv MO VE ML MR ka (Z.of_nat m) g Hn) as [CL CR].
    fold st n gidx in CL, CR.
    destruct (accept_ratios _ _ _ _ _ _ _ Ea) as [AR AA]. cbv zeta in AR, AA.
    assert (EMV : s_move st = mv) by apply st_move.
    pose proof (PL b t TI mv MO VE NB1 NZ) as (P1 & P2 & P3 & P4).
    fold small big in P1, P2, P3, P4. rewrite ed in P1, P2, P3, P4.
    pose proof (big_idx b SO t TI mv MO VE NB1 NZ) as BI. fold big gidx in BI.
    pose proof (small_idx b SO t TI mv MO VE NB1 NZ) as SI. fold small gidx n in SI.
    assert (NT : 1 <= zlen (trees b)).
    { assert (m < length (trees b))%nat by (apply nth_error_Some; congruence). unfold zlen. lia. }
    split; [| split].
    - intros p w Q0 Q1 Q2 PS PB. rewrite <- ed in Q0, Q1, Q2, PS, PB.
      pose proof (trans_value b SO t TI mv MO VE NB1 NZ km (Z.of_nat m) EM NG p w Q0 Q1 Q2 PS PB) as TV.
      cbv zeta in TV. rewrite ed, pts_eq, mp_eq in TV. fold n big small gidx in TV.
      destruct TV as (T1 & T2 & T3). split; [exact T1 |]. split; [exact T2 |].
      etransitivity; [| exact T3]. rewrite AR. cbn [fst].
      assert (EL : s_ltp st = complete_ratio mv (s_counts st) (min_points_per_leaf b)).
      { unfold st, parallel_stage_tree. destruct (compute_count_trees _ _ _). reflexivity. }
      rewrite EL. unfold complete_ratio. rewrite CL, CR, mp_eq. reflexivity.
    - pose proof (like_ratio b SO t TI mv MO VE ML MR ka (Z.of_nat m) g r1 r2 a Ea L1 NT S2 NB1 NZ) as LR.
      cbv zeta in LR. fold n gidx in LR. rewrite SI in LR. rewrite BI in LR.
      rewrite !(resid_at r1 L1 HR) in LR by auto. exact LR.
    - assert (MA : m_allowed mv = true).
      { destruct (kinds b t TI mv MO VE NB1 NZ) as [(_ & H & _) | (_ & H & _)]; exact H. }
      assert (LU : m_logu mv = ln (1 + - r_unif (rng := g) (KSplit km (1 + zlen (trees b)) 0)
                                        (zlen (trees b) + Z.of_nat m))).
      { rewrite EM. unfold move_of. destruct (sample_moves_tree _ _ _). reflexivity. }
      exists (a_acc a). split.
      + rewrite AA, EMV, CL, CR, mp_eq, MA, andb_true_l, LU. f_equal.
        assert (PO : forall i, points_in d pts (fst big) (snd big) i = occ gidx i).
        { intros i. rewrite BI. pose proof (points_in_occ b SO (fst big) (snd big) i) as PO.
          rewrite ed, pts_eq in PO. now apply PO. }
        rewrite !PO. reflexivity.
      + pose proof (outcomes b SO t TI mv MO VE ML MR ka (Z.of_nat m) g r1 r2 a _ Ea) as OC.
        change (final_tree (split_bits b) (parallel_stage_tree b ka (Z.of_nat m) t mv) a)
          with (final_tree (split_bits b) st a) in OC.
        assert (EN : new_tree b km ka (Z.of_nat m, t, a) = final_tree (split_bits b) st a).
        { unfold new_tree. cbn [fst snd]. now rewrite ES. }
        assert (EV : t_var t' = m_var_tree mv).
        { rewrite Et, EN. apply t'_var; auto. }
        rewrite EV. rewrite Et, EN.
        pose proof VE as (_ & _ & _ & V4). unfold structure_of, structure, proposed_rules.
        fold small big.
        destruct OC as [O1 O2 O3 | OA OG CG OP O1 HV RO OE O2 O3 | OA OG PR O1 O2 O3]; fold st in O1;
          rewrite O1.
        * destruct (a_acc a) eqn:Eacc; [specialize (O3 eq_refl); unfold n in *; lia |].
          apply decode_ext; auto; lia.
        * rewrite OA, OG. destruct (kinds b t TI mv MO VE NB1 NZ) as
            [(_ & _ & _ & _ & Eb & _) | (MG & _)]; [| congruence].
          fold big in Eb. rewrite Eb. reflexivity.
        * rewrite OA, OG. destruct (kinds b t TI mv MO VE NB1 NZ) as
            [(MG & _) | (_ & _ & _ & _ & _ & Es)]; [congruence |].
          fold small in Es. rewrite Es. cbn [fst snd].
          apply decode_ext; [lia | auto |]. intros j _ [D0 D]. apply V4. split; auto.
          pose proof (ti_split _ _ TI) as LS.
          rewrite entry_scatter in D by lia. fold n in D. destruct (j =? n); [congruence | exact D].
  Qed.

  Lemma tree_like :
    let f tr i := post_const ntree (sigma2 b) (rest tr i) in
    let M tr := fold_right Rmult 1%R (map (f tr) (leaves (Z.to_nat d - 1) (snd tr) 1)) in
    is_tree_likelihood d (1 / ntree) (sigma2 b) others data big (M big) /\
    is_tree_likelihood d (1 / ntree) (sigma2 b) others data small (M small) /\
    (0 < M big)%R /\ (0 < M small)%R /\
    (f big (2 * n)%Z * f big (2 * n + 1)%Z / f small n = M big / M small)%R.
  Proof.
    intros f M.
    assert (NT : (0 < ntree)%R).
    { unfold ntree. apply IZR_lt. assert (m < length (trees b))%nat by (apply nth_error_Some; congruence).
      unfold zlen. lia. }
    assert (FP : forall tr i, (0 < f tr i)%R) by (intros; now apply post_const_pos).
    assert (IL : forall tr, is_tree_likelihood d (1 / ntree) (sigma2 b) others data tr (M tr)).
    { intros tr. exists (f tr). split; [| reflexivity]. intros i _. now apply marginal_exact. }
    assert (MP : forall tr, (0 < M tr)%R) by (intros; now apply prod_pos).
    repeat (split; auto).
    destruct (step_tree s b OK RE g rl k m t t' Ht Ht') as (r1 & r2 & a & Ea & Et & L1 & RT & HR).
    fold others in HR. pose proof NB' as NB1.
    destruct mv_facts as (MO & VE & ML & MR & NG).
    set (gidx := apply_grow_to_indices mv (t_idx t) (X b)).
    pose proof (NR b t TI mv MO VE NB1 NZ) as Hn. fold n in Hn.
    pose proof (PL b t TI mv MO VE NB1 NZ) as (P1 & P2 & P3 & P4).
    fold small big in P1, P2, P3, P4.
    pose proof (levels_ok b SO _ P2) as LB. pose proof (levels_ok b SO _ P4) as LS.
    rewrite ed in P1, P2, P3, P4, LB, LS.
    pose proof (big_idx b SO t TI mv MO VE NB1 NZ) as BI. fold big gidx in BI.
    pose proof (small_idx b SO t TI mv MO VE NB1 NZ) as SI. fold small gidx n in SI.
    pose proof (big_leaves b t TI mv MO VE NB1 NZ) as BL. fold big small n in BL.
    pose proof (SS b t TI mv MO VE NB1 NZ) as [_ LN]. fold small n in LN.
    assert (NC : forall i, leaf_node (snd small) i -> i <> 2 * n /\ i <> 2 * n + 1).
    { intros i [R ND]. destruct LN as [_ NDn].
      split; intros ->; apply reachable_parent in R; try lia; destruct R as [_ R].
      - replace (2 * n / 2) with n in R by lia. auto.
      - replace ((2 * n + 1) / 2) with n in R by lia. auto. }
    assert (U : forall sp i, leaf_node sp i -> under 1 i).
    { intros sp i [R _]. apply under_root. eapply reachable_pos; eauto. }
    assert (IB : forall i, In i (leaves (Z.to_nat d - 1) (snd big) 1) <-> leaf_node (snd big) i).
    { intros i. rewrite In_leaves by (auto; try lia; constructor). split; [tauto |].
      intros L. split; eauto. }
    assert (IS : forall i, In i (leaves (Z.to_nat d - 1) (snd small) 1) <-> leaf_node (snd small) i).
    { intros i. rewrite In_leaves by (auto; try lia; constructor). split; [tauto |].
      intros L. split; eauto. }
    assert (DB : NoDup (leaves (Z.to_nat d - 1) (snd big) 1))
      by (apply NoDup_leaves; auto; try lia; constructor).
    assert (DS : NoDup (leaves (Z.to_nat d - 1) (snd small) 1))
      by (apply NoDup_leaves; auto; try lia; constructor).
    set (L := filter (fun i => negb (i =? n)) (leaves (Z.to_nat d - 1) (snd small) 1)).
    assert (IL' : forall i, In i L <-> leaf_node (snd small) i /\ i <> n).
    { intros i. unfold L. rewrite filter_In, IS, negb_true_iff, Z.eqb_neq. reflexivity. }
    assert (PS : Permutation (leaves (Z.to_nat d - 1) (snd small) 1) (n :: L)).
    { apply NoDup_Permutation; auto.
      - constructor; [rewrite IL'; tauto | now apply NoDup_filter].
      - intros i. cbn [In]. rewrite IS, IL'. destruct (Z.eq_dec n i) as [<- | N]; [tauto |].
        split; [intros; right; split; auto | intros [? | [? _]]; [congruence | auto]]. }
    assert (PB : Permutation (leaves (Z.to_nat d - 1) (snd big) 1) (2 * n :: 2 * n + 1 :: L)).
    { apply NoDup_Permutation; auto.
      - constructor; [| constructor; [| now apply NoDup_filter]].
        + intros [H | H]; [lia |]. apply IL' in H. destruct H as [H _]. apply NC in H. lia.
        + intros H. apply IL' in H. destruct H as [H _]. apply NC in H. lia.
      - intros i. cbn [In]. rewrite IB, BL, IL'. intuition lia. }
    assert (FE : map (f big) L = map (f small) L).
    { apply map_ext_in. intros i Hi. apply IL' in Hi. destruct Hi as [Hi N]. unfold f. f_equal.
      unfold rest. rewrite <- !(resid_at r1 L1 HR) by auto. rewrite <- BI, <- SI.
      symmetry. apply values_at_other; auto; now apply NC. }
    unfold M. rewrite (prod_perm _ _ (Permutation_map (f big) PB)).
    rewrite (prod_perm _ _ (Permutation_map (f small) PS)). cbn [map fold_right]. rewrite FE.
    pose proof (prod_pos (f small) L (FP small)) as HP. pose proof (FP small n).
    field. lra.
  Qed.
End MH.
