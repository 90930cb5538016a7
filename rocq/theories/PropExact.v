(** Properties in exact real arithmetic: residuals (C07), leaf values (C15),
    noise variance (C16). *)
From Coq Require Import ZArith List Bool Lia Reals Lra.
From Verif Require Import Base LemBase ModelJaxext ModelGrove ModelStep SpecTree
  SpecRange SpecForest SpecRun SpecPosterior SpecExact Laws ProofTree ProofCategorical ProofRange
  ProofAggregate ProofRoute ProofMoves ProofStep ProofRun ProofForest ProofLeaf ProofNormal
  ProofDraw ProofExact Examples.
Import ListNotations.
Open Scope Z_scope.

Section Props.
  Context {zo : zoob} {foo : foob rops}.

  (** C07. The residuals are the response minus the prediction of the current
      forest at the training points, as computed by [evaluate_forest], and as
      the sum of the values of the trees. *)
  Theorem C07_residuals : forall s b, settings_ok s -> reached s b ->
    resid b = map2 Rminus (i_y s)
      (evaluate_forest (i_X s) (map (fun t => (t_leaf t, t_var t, t_split t)) (trees b))) /\
    resid b = map2 (fun yv x => yv - predict_sum (depth_of s) (trees b) x)%R (i_y s) (points_of s).
  Proof.
    intros s b OK R. pose proof (reached_inv s OK b R) as I.
    destruct (reached_fields s b R) as (EX & EY & _ & _ & ED & _).
    pose proof (resid_len s b OK R) as RL. pose proof (ok_n _ OK) as NY.
    assert (H : resid b = map2 (fun yv x => yv - predict_sum (depth_of s) (trees b) x)%R
                            (i_y s) (points_of s)).
    { apply (list_ext _ 0%R).
      - unfold points_of. rewrite zlen_map2, zlen_map. rewrite EY in RL. rlia.
      - intros j Hj. assert (Hj' : 0 <= j < zlen (X b)) by (rewrite EX; rewrite EY in RL; rlia).
        rewrite (resid_inv s b OK R) by auto.
        rewrite (forest_at_predict b) by (auto; apply I).
        unfold points_of. rewrite <- EX, <- EY in *.
        rewrite (zget_map2 _ _ _ _ _ 0%R (gather zmode [])) by (rewrite ?zlen_map; rlia).
        rewrite (zget_map _ _ _ []) by auto. now rewrite ED. }
    split; auto. rewrite H. pose proof (so_d _ (in_setup _ I)) as Hd.
    rewrite (evaluate_forest_spec (bd b)).
    - unfold points_of. rewrite !map2_map_r. apply map2_ext. intros yv x.
      cbn [rops fadd f0]. rewrite fold_left_Rplus, map_map. rewrite <- ED.
      rewrite Rplus_0_l. reflexivity.
    - lia.
    - apply Forall_forall. intros a Ha. apply in_map_iff in Ha. destruct Ha as (t & <- & Ht).
      pose proof (in_trees _ I t Ht) as T. repeat split; apply T.
  Qed.

  Section OneStep.
    Context {g : rng rops} {rl : rlaws g}.

    (** C15. After a step, the value of each leaf [i] of each tree is drawn
        from its distribution given the data, the noise variance before the
        step, and the other trees: those before it as updated by this step,
        those after it as they were. *)
    Theorem C15_leaf_posterior : forall s b k m t t' i, settings_ok s -> reached s b ->
      (0 < sigma2 b)%R ->
      nth_error (trees b) m = Some t -> nth_error (trees (step b k)) m = Some t' ->
      leaf_node (t_split t') i ->
      let others := firstn m (trees (step b k)) ++ skipn (S m) (trees b) in
      let rs := leaf_residuals (depth_of s) others (t_var t') (t_split t') i
                  (combine (points_of s) (i_y s)) in
      exists mean var,
        is_posterior (1 / IZR (zlen (trees b))) (sigma2 b) rs mean var /\
        zget 0%R (t_leaf t') i =
          (mean + r_normal (rng := g) (KSplit (KSplit k 2 1) 2 0) (Z.of_nat m * 2 ^ depth_of s + i)
                  * sqrt var)%R.
    Proof.
      intros s b k m t t' i OK R Hs Ht Ht' L others rs.
      pose proof (reached_inv s OK b R) as I. pose proof (in_setup _ I) as SO.
      destruct (reached_fields s b R) as (EX & EY & _ & _ & ED & _).
      destruct (step_tree s b OK R g rl k m t t' Ht Ht') as (r1 & r2 & a & Ea & Et & L1 & _ & HR).
      fold others in HR.
      pose proof (in_trees _ I t (nth_error_In _ _ Ht)) as TI.
      set (km := KSplit (KSplit k 2 1) 2 1) in *. set (ka := KSplit (KSplit k 2 1) 2 0) in *.
      destruct (move_of_cases b km (Z.of_nat m, t) SO TI) as (H1 & H2 & H3 & H4 & _ & H6 & _ & H8).
      cbn [snd] in H1, H2, H3, H4, H6, H8.
      pose proof (leaf_value b SO t TI _ H1 H2 H3 H4 ka (Z.of_nat m) g r1 r2 a (ef_of b) Ea L1
        H6 (fun H => proj2 (proj1 H8 H)) i) as LV.
      change (final_tree (split_bits b) (parallel_stage_tree b ka (Z.of_nat m) t
                (move_of b km (Z.of_nat m, t))) a) with (new_tree b km ka (Z.of_nat m, t, a)) in LV.
      rewrite <- Et in LV. specialize (LV L).
      assert (TI' : tree_inv b t').
      { rewrite Et. eapply new_tree_inv; eauto. }
      assert (IO : forall t0, In t0 others -> tree_inv b t0).
      { intros t0 H0. unfold others in H0. apply in_app_or in H0. destruct H0 as [H0 | H0].
        - pose proof (in_trees _ (inv_step b k I) t0) as TT.
          apply (tree_same (step b k) b); [| apply TT].
          + destruct (step_same b k) as (E1 & E2 & E3 & E4 & E5 & E6 & E7 & E8). repeat split; auto.
          + rewrite <- (firstn_skipn m). apply in_or_app. now left.
        - apply (in_trees _ I). rewrite <- (firstn_skipn (S m)). apply in_or_app. now right. }
      assert (Ers : values_at (t_idx t') (partial_resid t r1) i = rs).
      { unfold rs. rewrite <- values_at_spec. unfold points_of. rewrite <- ED, <- EX. f_equal.
        - rewrite map_map. rewrite (ti_idx _ _ TI'). apply map_ext. intros x. symmetry.
          pose proof (so_d _ SO). apply leaf_of_traverse; [lia | apply TI' | apply TI'].
        - assert (LI : zlen (t_idx t) = zlen (X b)) by (rewrite (ti_idx _ _ TI); apply zlen_map).
          pose proof (ok_n _ OK) as NY. rewrite <- EX in NY.
          unfold partial_resid. apply (list_ext _ 0%R).
          + rewrite !zlen_map2, !zlen_map. rlia.
          + intros j Hj. rewrite zlen_map2, zlen_map in Hj.
            assert (Hj' : 0 <= j < zlen (X b)) by rlia.
            rewrite (zget_map2 _ _ _ _ _ 0%R 0%R) by (rewrite ?zlen_map; rlia).
            rewrite (zget_map _ _ _ 0) by lia. fold (tval t j). rewrite HR by auto.
            rewrite (forest_at_predict b) by auto. rewrite EY.
            rewrite (zget_map2 _ _ _ _ _ 0%R (gather zmode [])) by (rewrite ?zlen_map; rlia).
            now rewrite (zget_map _ _ _ []) by auto. }
      rewrite Ers in LV. cbv zeta in LV.
      assert (Hn : (0 < IZR (zlen (trees b)))%R).
      { apply IZR_lt. assert (m < length (trees b))%nat by (apply nth_error_Some; congruence).
        unfold zlen. lia. }
      exists (post_mean (IZR (zlen (trees b))) (sigma2 b) rs), (post_var (IZR (zlen (trees b))) (sigma2 b) rs).
      split; [now apply posterior_exact |]. rewrite LV, ED. reflexivity.
    Qed.

    (** C16. The new noise variance. *)
    Theorem C16_noise_variance : forall s b k, settings_ok s -> reached s b ->
      let b' := step b k in
      let sq_norm := rsum (map2 (fun yv x => (yv - predict_sum (depth_of s) (trees b') x) ^ 2)%R
                             (i_y s) (points_of s)) in
      sigma2 b' = ((i_sigma2_beta s + sq_norm / 2) /
        r_gamma (rng := g) (KSplit k 2 0) (i_sigma2_alpha s + IZR (zlen (i_y s)) / 2))%R.
    Proof.
      intros s b k OK R b' sq_norm.
      assert (R' : reached s b') by (now apply reached_step).
      destruct (C07_residuals s b' OK R') as [_ RE].
      destruct (reached_fields s b' R') as (_ & EY & _ & _ & _ & _ & _ & _ & _ & EA & EB & _).
      pose proof (resid_len s b' OK R') as RL. rewrite EY in RL.
      unfold b', step. unfold sample_sigma, set_sigma2. cbn [sigma2].
      set (b1 := sample_trees b (KSplit k 2 1)).
      change (resid b1) with (resid b'). change (sigma2_alpha b1) with (sigma2_alpha b').
      change (sigma2_beta b1) with (sigma2_beta b'). rewrite EA, EB, RL.
      cbn [rops fadd fdiv fofZ]. do 2 f_equal. f_equal.
      unfold dot. cbn [rops fmul fadd f0]. rewrite fold_left_Rplus.
      change (Rsum (map2 Rmult (resid b') (resid b'))) with (rsum (map2 Rmult (resid b') (resid b'))).
      rewrite Rplus_0_l. rewrite map2_same. unfold sq_norm. rewrite RE.
      rewrite map_map2. f_equal. apply map2_ext. intros; ring.
    Qed.
  End OneStep.

  (** C16. Updating the noise variance changes nothing else. *)
  Theorem C16_nothing_else : forall (g : rng rops) (b : bart) k,
    let b' := sample_sigma b k in
    trees b' = trees b /\ resid b' = resid b /\ y b' = y b /\ X b' = X b /\
    (grow_prop_count b', grow_acc_count b', prune_prop_count b', prune_acc_count b') =
      (grow_prop_count b, grow_acc_count b, prune_prop_count b, prune_acc_count b) /\
    p_nonterminal b' = p_nonterminal b /\ p_propose_grow b' = p_propose_grow b /\
    sigma2_alpha b' = sigma2_alpha b /\ sigma2_beta b' = sigma2_beta b /\
    max_split b' = max_split b /\ split_bits b' = split_bits b /\
    min_points_per_leaf b' = min_points_per_leaf b /\
    resid_batch_size b' = resid_batch_size b /\ count_batch_size b' = count_batch_size b /\
    ratios b' = ratios b.
  Proof. intros. repeat split. Qed.

  (** C16. The noise variance is positive in every state of an execution. *)
  Theorem C16_positive : forall s b, settings_ok s -> reached_real s b ->
    (0 < i_sigma2_alpha s)%R -> (0 < i_sigma2_beta s)%R -> (0 < sigma2 b)%R.
  Proof.
    intros s b OK R Ha Hb. induction R as [| b g k rg R IH].
    - unfold init_of, init. cbn [sigma2 fisfinite rops andb].
      destruct (flt _ _) eqn:E; [| cbn; lra]. now apply Rltb_spec in E.
    - apply reached_real_reached in R. pose proof (real_rng_laws g rg) as rl.
      rewrite (C16_noise_variance s b k OK R).
      apply Rdiv_lt_0_compat.
      + match goal with |- context [rsum ?l] => assert (0 <= rsum l)%R end; [| lra].
        assert (P : forall l, (forall x, In x l -> 0 <= x)%R -> (0 <= rsum l)%R).
        { induction l as [| x l IHl]; intros H; [cbn; lra |]. rewrite rsum_cons.
          pose proof (H x (or_introl eq_refl)). pose proof (IHl (fun z Hz => H z (or_intror Hz))). lra. }
        apply P. intros x Hx. apply In_map2 in Hx. destruct Hx as (u & v & _ & _ & ->).
        apply pow2_ge_0.
      + apply rr_gamma. pose proof (zlen_nonneg _ (i_y s)). apply IZR_le in H. lra.
  Qed.

  (** C16. Without a positive beta it is enough that the fit is not perfect. *)
  Theorem C16_positive_residual : forall (g : rng rops) (rg : real_rng g) s b k,
    settings_ok s -> reached s b ->
    (0 < i_sigma2_alpha s)%R -> (0 <= i_sigma2_beta s)%R ->
    (exists r, In r (resid (step b k)) /\ r <> 0%R) -> (0 < sigma2 (step b k))%R.
  Proof.
    intros g rg s b k OK R Ha Hb (r & Hr & Hnz). pose proof (real_rng_laws g rg) as rl.
    rewrite (C16_noise_variance s b k OK R).
    apply Rdiv_lt_0_compat.
    - match goal with |- context [rsum ?l] => assert (0 < rsum l)%R end; [| lra].
      assert (P : forall l, (forall x, In x l -> 0 <= x)%R -> (0 <= rsum l)%R).
      { induction l as [| x l IHl]; intros H; [cbn; lra |]. rewrite rsum_cons.
        pose proof (H x (or_introl eq_refl)). pose proof (IHl (fun z Hz => H z (or_intror Hz))). lra. }
      assert (P' : forall l z, (forall x, In x l -> 0 <= x)%R -> In z l -> (0 < z)%R -> (0 < rsum l)%R).
      { induction l as [| x l IHl]; intros z H Hz Hp; [destruct Hz |]. rewrite rsum_cons.
        pose proof (H x (or_introl eq_refl)). pose proof (P l (fun z Hz => H z (or_intror Hz))).
        destruct Hz as [-> | Hz]; [lra |].
        pose proof (IHl z (fun z Hz => H z (or_intror Hz)) Hz Hp). lra. }
      destruct (C07_residuals s (step b k) OK (reached_step s b g k rl R)) as [_ RE].
      rewrite RE in Hr. apply (P' _ (r ^ 2)%R).
      + intros x Hx. apply In_map2 in Hx. destruct Hx as (u & v & _ & _ & ->). apply pow2_ge_0.
      + rewrite <- (map_map2 _ _ _ _ (fun r => r ^ 2)%R). now apply (in_map (fun r => r ^ 2)%R).
      + rewrite <- Rsqr_pow2. now apply Rsqr_pos_lt.
    - apply rr_gamma. pose proof (zlen_nonneg _ (i_y s)). apply IZR_le in H. lra.
  Qed.
End Props.
Print Assumptions C07_residuals.
Print Assumptions C15_leaf_posterior.
Print Assumptions C16_noise_variance.
Print Assumptions C16_nothing_else.
Print Assumptions C16_positive.
Print Assumptions C16_positive_residual.
