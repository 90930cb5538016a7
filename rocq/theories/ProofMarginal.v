(** In exact arithmetic: the likelihood ratio computed for a proposal. One
    tree. *)
From Coq Require Import ZArith List Bool Lia Reals Lra Permutation.
From Verif Require Import Base LemBase ModelJaxext ModelGrove ModelStep SpecTree
  SpecSampling SpecRange Laws SpecPosterior SpecProposal ProofTree ProofSampling ProofCategorical
  ProofRange ProofAggregate ProofRoute ProofMoves ProofStep ProofLeaf ProofNormal ProofDraw
  ProofGauss ProofProposal.
Import ListNotations.
Open Scope Z_scope.
Ltac Zify.zify_post_hook ::= Z.div_mod_to_equations.

Lemma values_at_collapse : forall A n idx (vals : list A), 1 <= n -> ~ In n idx ->
  Permutation (values_at (map (collapse n) idx) vals n)
    (values_at idx vals (2 * n) ++ values_at idx vals (2 * n + 1)).
Proof.
  intros A n. induction idx as [| j idx IH]; intros vals Hn NI; [constructor |].
  destruct vals as [| v vals]; [constructor |].
  cbn [map]. rewrite !values_at_cons. assert (NI' : ~ In n idx) by (intros H; apply NI; now right).
  specialize (IH vals Hn NI'). unfold collapse at 1.
  assert (j <> n) by (intros ->; apply NI; now left).
  destruct (Z.eqb_spec j (2 * n)), (Z.eqb_spec j (2 * n + 1)); cbn [orb]; try lia.
  - rewrite Z.eqb_refl. cbn [app]. now constructor.
  - rewrite Z.eqb_refl. eapply Permutation_trans; [apply perm_skip; exact IH |].
    apply Permutation_middle.
  - destruct (Z.eqb_spec j n); [lia |]. auto.
Qed.

(** what is computed for the acceptance *)
Lemma accept_ratios : forall {fo : fops} {foo : foob fo} rbs mp ef r s r' a,
  accept_move_and_sample_leaves rbs mp ef r s = (r', a) ->
  let rt := map2 fadd (sum_resid r (t_idx (s_tree s)) (zlen (t_leaf (s_tree s))) rbs)
              (map2 (fun c v => fmul (fofZ c) v) (s_count_tree s) (t_leaf (s_tree s))) in
  let L := gather fmode rt (m_left (s_move s)) in
  let R := gather fmode rt (m_right (s_move s)) in
  a_ratios a = (s_ltp s, compute_likelihood_ratio (fadd L R) L R (s_prelkv s) ef) /\
  a_acc a = m_allowed (s_move s) &&
    fle (m_logu (s_move s))
      (if m_grow (s_move s) then fadd (fst (a_ratios a)) (snd (a_ratios a))
       else fneg (fadd (fst (a_ratios a)) (snd (a_ratios a)))) &&
    match mp with
    | None => true
    | Some k => (k <=? c_left (s_counts s)) && (k <=? c_right (s_counts s))
    end.
Proof.
  intros fo foo rbs mp ef r s r' a E. unfold accept_move_and_sample_leaves in E.
  injection E as _ <-. cbn [a_ratios a_acc fst snd]. split; auto.
  destruct mp; rewrite ?andb_assoc, ?andb_true_r; auto.
Qed.

Section Marginal.
  Context {zo : zoob} {foo : foob rops}.
  Variable b : @bart rops.
  Hypothesis SO : setup_ok b.
  Let d := bd b.
  Variable t : @tree rops.
  Hypothesis TI : tree_inv b t.
  Variable m : @move rops.
  Hypothesis MO : move_ok b t m.
  Hypothesis VE : var_ext b t (m_var_tree m).
  Hypothesis ML : m_left m = 2 * m_node m.
  Hypothesis MR : m_right m = 2 * m_node m + 1.
  Let n := m_node m.
  Variables (kf : key) (ti : Z) (g : rng rops).
  Let st := parallel_stage_tree b kf ti t m.
  Variables (r r' : list (@F rops)) (a : @stage2 rops).
  Hypothesis ACC : accept_move_and_sample_leaves (resid_batch_size b) (min_points_per_leaf b)
                     (exp_factor (zlen (trees b)) (sigma2 b)) r st = (r', a).
  Hypothesis Hr : zlen r = zlen (X b).
  Hypothesis NT : 1 <= zlen (trees b).
  Hypothesis S2 : (0 < sigma2 b)%R.
  Hypothesis NB : n < heap_size d.
  Hypothesis NZ : entry (snd (big_rules t m)) (m_node m) <> 0.
  Let gidx := apply_grow_to_indices m (t_idx t) (X b).
  Let prs := partial_resid t r.
  Let ntree := IZR (zlen (trees b)).

  Lemma like_ratio :
    let rl := values_at gidx prs (2 * n) in
    let rr := values_at gidx prs (2 * n + 1) in
    let rt := values_at (map (collapse n) gidx) prs n in
    snd (a_ratios a) =
    ln (post_const ntree (sigma2 b) rl * post_const ntree (sigma2 b) rr
        / post_const ntree (sigma2 b) rt).
  Proof.
    intros rl rr rt. pose proof (node_range b t TI m MO VE NB NZ) as Hn. fold n d in Hn.
    pose proof (pow_heap b SO m) as Hp. fold d in Hp.
    assert (NT' : (0 < ntree)%R) by (apply IZR_lt; lia).
    rewrite <- (log_ratio_exact ntree (sigma2 b) rl rr rt NT' S2).
    2: { apply values_at_collapse; [lia |].
         exact (node_not_idx b SO t TI m MO VE NB NZ). }
    destruct (accept_ratios _ _ _ _ _ _ _ ACC) as [-> _]. cbn [snd].
    assert (EM : s_move st = m) by apply st_move. rewrite EM. rewrite ML, MR. fold n.
    pose proof (st_lens b SO t TI m MO VE ML MR kf ti g) as (L1 & L2 & L3 & L4 & Ei & Ev & _).
    fold st gidx d in L1, L2, L3, L4, Ei.
    assert (El : t_leaf (s_tree st) = adapt_leaf_trees_to_grow_indices (t_leaf t) m).
    { unfold st, parallel_stage_tree. destruct (compute_count_trees _ _ _). reflexivity. }
    fold st. rewrite Ei, L1, El.
    pose proof (len_rt1 b SO t TI m MO VE ML MR kf ti g r) as LR.
    pose proof (rt1_at b SO t TI m MO VE ML MR kf ti g r r' a _ ACC Hr) as RA.
    pose proof (count_other b SO t TI m MO VE ML MR kf ti g) as CO.
    cbv zeta in RA, LR. fold st gidx d in RA, LR, CO. fold n in CO.
    rewrite !(gather_in _ _ 0%R) by rlia.
    rewrite !RA by (try apply CO; rlia). rewrite !sum_at_values. fold prs rl rr.
    assert (Ec : s_prelkv st = precompute_likelihood_terms (zlen (trees b)) (sigma2 b) (s_counts st)).
    { unfold st, parallel_stage_tree. destruct (compute_count_trees _ _ _). reflexivity. }
    assert (GL : zlen gidx = zlen prs).
    { unfold prs. rewrite (prs_grown b SO t TI m MO VE ML MR). rewrite zlen_map2, zlen_map.
      pose proof (glen b t TI m). fold gidx in H. fold gidx. rlia. }
    assert (Ecs : c_left (s_counts st) = Z.of_nat (length rl) /\ c_right (s_counts st) = Z.of_nat (length rr)
             /\ c_total (s_counts st) = Z.of_nat (length rl) + Z.of_nat (length rr)).
    { change (Z.of_nat (length rl)) with (zlen rl). change (Z.of_nat (length rr)) with (zlen rr).
      unfold rl, rr. rewrite !zlen_values_at by rlia.
      unfold st, parallel_stage_tree. fold gidx.
      destruct (compute_count_trees gidx m (count_batch_size b)) as [ct c] eqn:E.
      cbn [s_counts].
      destruct (counts_spec b SO t m VE ML MR gidx ct c E) as (_ & H & _).
      { intros j Hj. pose proof (gidx_range b SO t TI m MO VE 0 j Hj). rlia. }
      { pose proof (glen b t TI m). fold gidx in H. rewrite H. apply (so_n _ SO). }
      destruct (H Hn) as (H1 & H2 & H3 & _). auto. }
    destruct Ecs as (C1 & C2 & C3).
    rewrite Ec. unfold compute_likelihood_ratio, precompute_likelihood_terms, exp_factor.
    cbn [sqrt_term sigma2_left sigma2_right sigma2_total]. rewrite C1, C2, C3.
    cbn [rops fadd fsub fmul fdiv flog fofZ f1]. rewrite plus_IZR, <- !INR_IZR_INZ.
    reflexivity.
  Qed.
End Marginal.
