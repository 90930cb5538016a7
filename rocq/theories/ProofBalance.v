(** Probability of each outcome of the update of one tree. *)
From Coq Require Import ZArith List Bool Lia Reals Lra Permutation.
From Verif Require Import Base LemBase ModelJaxext ModelGrove ModelStep SpecTree
  SpecSampling SpecRange SpecForest SpecRun SpecPosterior SpecProposal SpecExact SpecMH SpecKeys SpecChance Laws ProofTree
  ProofSampling ProofCategorical ProofRange ProofAggregate ProofRoute ProofMoves ProofStep ProofRun ProofForest
  ProofDraw ProofExact ProofNormal ProofGauss ProofProposal ProofTransition ProofRatio ProofMH PropKeys PropForest
  PropMH ProofChance ProofProb ProofShape.
Import ListNotations.
Open Scope Z_scope.
Ltac Zify.zify_post_hook ::= Z.div_mod_to_equations.

Lemma rsum_nonneg : forall (f : Z -> R) l, (forall i, In i l -> (0 < f i)%R) -> (0 <= rsum (map f l))%R.
Proof.
  intros f. induction l as [| a l IH]; intros H; cbn [map rsum fold_right]; [lra |].
  pose proof (H a (or_introl eq_refl)). assert (Q := IH ltac:(intros; apply H; now right)).
  unfold rsum in Q. lra.
Qed.

Lemma rsum_member : forall (f : Z -> R) l n, In n l -> (forall i, In i l -> (0 < f i)%R) -> (f n <= rsum (map f l))%R.
Proof.
  intros f. induction l as [| a l IH]; intros n Hn H; [destruct Hn |].
  pose proof (H a (or_introl eq_refl)) as Ha.
  assert (N := rsum_nonneg f l ltac:(intros; apply H; now right)). unfold rsum in *. cbn [map fold_right].
  destruct Hn as [-> | Hn]; [lra |]. assert (Q := IH n Hn ltac:(intros; apply H; now right)). lra.
Qed.

(** ** The earlier trees do not depend on the draws for this one *)

Lemma firstn_map2 : forall A B C (f : A -> B -> C) m a b,
  firstn m (map2 f a b) = map2 f (firstn m a) (firstn m b).
Proof.
  intros A B C f. induction m as [| m IH]; intros a b; [reflexivity |].
  destruct a as [| x a]; [reflexivity |]. destruct b as [| z b]; [reflexivity |].
  cbn [firstn map2]. f_equal. apply IH.
Qed.

Lemma In_firstn_enumerate : forall A m (l : list A) it, In it (firstn m (enumerate l)) ->
  0 <= fst it < Z.of_nat m /\ fst it < zlen l.
Proof.
  intros A m l it H. unfold enumerate, arange, zlen in *. rewrite Nat2Z.id in H. rewrite combine_firstn in H.
  destruct it as [i t]. apply in_combine_l in H. rewrite firstn_map in H. apply in_map_iff in H.
  destruct H as (j & <- & Hj). cbn [fst].
  apply (In_nth _ _ 0%nat) in Hj. destruct Hj as (q & Hq & <-). rewrite firstn_length, seq_length in Hq.
  rewrite <- (firstn_skipn m (seq 0 (length l))) in *.
  assert (E : nth q (firstn m (firstn m (seq 0 (length l)) ++ skipn m (seq 0 (length l)))) 0%nat = q).
  { rewrite firstn_skipn. rewrite <- (app_nth1 _ (skipn m (seq 0 (length l)))).
    - rewrite firstn_skipn. rewrite seq_nth; lia.
    - rewrite firstn_length, seq_length. lia. }
  rewrite E. lia.
Qed.

Section Prefix.
  Context {fo : fops} {zo : zoob} {foo : foob fo}.
  Variables g g' : rng fo.

  Lemma sequential_prefix : forall rbs mp ef m ss r,
    firstn m (snd (sequential_stage rbs mp ef r ss)) = snd (sequential_stage rbs mp ef r (firstn m ss)).
  Proof.
    intros rbs mp ef. induction m as [| m IH]; intros ss r; [reflexivity |].
    destruct ss as [| s ss]; [reflexivity |]. cbn [firstn sequential_stage].
    destruct (accept_move_and_sample_leaves rbs mp ef r s) as [r1 a]. specialize (IH ss r1).
    destruct (sequential_stage rbs mp ef r1 ss) as [r2 l].
    destruct (sequential_stage rbs mp ef r1 (firstn m ss)) as [r3 l']. cbn [snd firstn] in *. now f_equal.
  Qed.

  Lemma trees_prefix : forall (g : rng fo) b k m,
    let km := KSplit (KSplit k 2 1) 2 1 in let ka := KSplit (KSplit k 2 1) 2 0 in
    let ss := map (stage_of (g := g) b km ka) (firstn m (enumerate (trees b))) in
    firstn m (trees (step (g := g) b k)) =
    map2 (final_tree (split_bits b)) ss
      (snd (sequential_stage (resid_batch_size b) (min_points_per_leaf b) (ef_of b) (resid b) ss)).
  Proof.
    intros g0 b k m km ka ss. unfold step, sample_trees, accept_moves_and_sample_leaves. cbv zeta.
    rewrite parallel_stage_map. fold km ka. fold (ef_of b).
    unfold ss. rewrite <- firstn_map, <- sequential_prefix.
    destruct (sequential_stage _ _ _ _ _) as [r aa] eqn:E. unfold sample_sigma. cbn [set_sigma2 trees snd].
    apply firstn_map2.
  Qed.

  Lemma same_prefix : forall b k m,
    let km := KSplit (KSplit k 2 1) 2 1 in let ntree := zlen (trees b) in
    (forall j, 0 <= j < Z.of_nat m -> j < ntree ->
       r_unif (rng := g) (KSplit km (1 + ntree) 0) j = r_unif (rng := g') (KSplit km (1 + ntree) 0) j /\
       r_unif (rng := g) (KSplit km (1 + ntree) 0) (ntree + j) = r_unif (rng := g') (KSplit km (1 + ntree) 0) (ntree + j) /\
       forall dr, In dr (tree_draws (KSplit km (1 + ntree) (1 + j))) -> same_draw g g' dr) ->
    (forall k i, r_normal (rng := g) k i = r_normal (rng := g') k i) ->
    firstn m (trees (step (g := g) b k)) = firstn m (trees (step (g := g') b k)).
  Proof.
    intros b k m km ntree H HN. rewrite !trees_prefix. fold km. set (ka := KSplit (KSplit k 2 1) 2 0).
    assert (E : map (stage_of (g := g) b km ka) (firstn m (enumerate (trees b))) =
                map (stage_of (g := g') b km ka) (firstn m (enumerate (trees b)))); [| now rewrite E].
    apply map_ext_in. intros [j t] Hj. apply In_firstn_enumerate in Hj. cbn [fst] in Hj.
    destruct (H j) as (H1 & H2 & H3); try (unfold ntree; lia). clear H.
    unfold stage_of. cbn [fst snd].
    assert (EM : move_of (g := g) b km (j, t) = move_of (g := g') b km (j, t)).
    { unfold move_of. cbn [fst snd]. fold ntree. rewrite (same_tree g g') by exact H3. now rewrite H1, H2. }
    rewrite EM. unfold parallel_stage_tree, precompute_leaf_terms.
    destruct (compute_count_trees _ _ _) as [ct c]. do 3 f_equal. apply map_ext. intros q. apply HN.
  Qed.
End Prefix.

Lemma tree_sites_nodup : forall k ntree m, 1 <= ntree -> NoDup (tree_sites k ntree m).
Proof.
  intros k ntree m H. unfold tree_sites.
  repeat constructor; cbn [In]; intros Q;
    repeat match goal with Q : _ \/ _ |- _ => destruct Q as [Q | Q] end; try contradiction; try discriminate.
  injection Q as Q. lia.
Qed.

Section Differ.
  Context {zo : zoob} {foo : foob rops}.

  Lemma differ_prefix : forall (g g' : rng rops) b k m, (m < length (trees b))%nat ->
    differ_only_at (tree_sites k (zlen (trees b)) (Z.of_nat m)) g g' ->
    firstn m (trees (step (g := g) b k)) = firstn m (trees (step (g := g') b k)).
  Proof.
    intros g g' b k m Hm (A & B & _). apply same_prefix; [| exact B].
    intros j Hj Hj'. set (ntree := zlen (trees b)) in *.
    assert (Z.of_nat m < ntree) by (unfold ntree, zlen; lia).
    assert (SU : forall i, i <> Z.of_nat m -> i <> ntree + Z.of_nat m ->
      r_unif (rng := g) (KSplit (KSplit (KSplit k 2 1) 2 1) (1 + ntree) 0) i =
      r_unif (rng := g') (KSplit (KSplit (KSplit k 2 1) 2 1) (1 + ntree) 0) i).
    { intros i N1 N2. apply (A (Unif _ i)). unfold tree_sites. cbn [In]. intros Q.
      repeat match goal with Q : _ \/ _ |- _ => destruct Q as [Q | Q] end; try contradiction; try discriminate;
        injection Q as Q; lia. }
    split; [apply SU; lia |]. split; [apply SU; lia |].
    intros dr Hd. unfold tree_draws in Hd. cbn [In] in Hd.
    repeat match goal with Q : _ \/ _ |- _ => destruct Q as [<- | Q] end; try contradiction; cbn [same_draw].
    - apply (A (UnifTo _)). unfold tree_sites. cbn [In]. intros Q.
      repeat match goal with Q : _ \/ _ |- _ => destruct Q as [Q | Q] end; try contradiction; try discriminate;
        injection Q as Q; lia.
    - apply (A (Int _)). unfold tree_sites. cbn [In]. intros Q.
      repeat match goal with Q : _ \/ _ |- _ => destruct Q as [Q | Q] end; try contradiction; try discriminate;
        injection Q as Q; lia.
    - apply (A (Int _)). unfold tree_sites. cbn [In]. intros Q.
      repeat match goal with Q : _ \/ _ |- _ => destruct Q as [Q | Q] end; try contradiction; try discriminate;
        injection Q as Q; lia.
    - apply (A (Int _)). unfold tree_sites. cbn [In]. intros Q.
      repeat match goal with Q : _ \/ _ |- _ => destruct Q as [Q | Q] end; try contradiction; try discriminate;
        injection Q as Q; lia.
  Qed.
End Differ.

Section Update.
  Context {zo : zoob} {foo : foob rops}.
  Variables (s : @settings rops) (b : @bart rops).
  Hypothesis OK : settings_ok s.
  Hypothesis RE : reached s b.
  Hypothesis S2 : (0 < sigma2 b)%R.
  Variables (k : key) (m : nat) (t : @tree rops).
  Hypothesis Ht : nth_error (trees b) m = Some t.
  Let d := depth_of s.
  Let p := prob_nonterminal s.
  Hypothesis P1 : forall j, 0 <= j < d - 1 -> (0 < p j < 1)%R.
  Variable c0 : Z.
  Hypothesis Em : i_min_points s = Some c0.
  Let ms := i_max_split s.
  Let bits := i_split_bits s.
  Let w := rule_probability bits ms.
  Hypothesis HF : forall k, In k [8; 16; 32] -> zlen ms = 2 ^ k -> entry ms 0 <> 0.
  Let tr := (t_var t, t_split t).
  Hypothesis RV : forall i, decision (snd tr) i -> 0 <= entry (fst tr) i < zlen ms /\ valid_rule (fst tr) (snd tr) ms i.
  Let pts := points_of s.
  Let mp := i_min_points s.
  Let data := combine pts (i_y s).
  Let ntree := zlen (trees b).
  Let km := moves_key k.
  Let sites := tree_sites k ntree (Z.of_nat m).
  Let I := reached_inv s OK b RE.
  Let SO := in_setup _ I.
  Let TI : tree_inv b t := in_trees _ I t (nth_error_In _ _ Ht).

  (** the structure of the tree after the step *)
  Definition tree_after (g : rng rops) : option (dtree unit) :=
    option_map (fun t' => structure d (t_var t') (t_split t')) (nth_error (trees (step (g := g) b k)) m).

  Let others (g : rng rops) := firstn m (trees (step (g := g) b k)) ++ skipn (S m) (trees b).
  Let is_like (g : rng rops) := is_tree_likelihood d (1 / IZR ntree) (sigma2 b) (others g) data.

  Lemma m_lt : (m < length (trees b))%nat.
  Proof. apply nth_error_Some. congruence. Qed.

  Lemma bd_d : bd b = d.
  Proof. destruct (reached_fields s b RE) as (_ & _ & _ & _ & ED & _). exact ED. Qed.

  Lemma d_range : 2 <= d <= 64.
  Proof. rewrite <- bd_d. apply (so_d _ SO). Qed.

  Lemma tr_shape : shape d tr.
  Proof.
    unfold shape. cbn [tr fst snd]. rewrite <- bd_d. repeat split; apply TI.
  Qed.

  Lemma tr_allowed : allowed bits ms tr.
  Proof. apply valid_allowed. exact RV. Qed.

  Lemma ms_eq : max_split b = ms.
  Proof. destruct (reached_fields s b RE) as (_ & _ & EM & _). exact EM. Qed.

  Lemma bits_eq : split_bits b = bits.
  Proof. destruct (reached_fields s b RE) as (_ & _ & _ & _ & _ & _ & _ & _ & EB & _). exact EB. Qed.

  Lemma HFb : forall k0, In k0 [8; 16; 32] -> zlen (max_split b) = 2 ^ k0 -> entry (max_split b) 0 <> 0.
  Proof. rewrite ms_eq. exact HF. Qed.

  Lemma weights : forall i, 1 <= i < heap_size d -> zget 0%R (p_propose_grow b) i = p (Z.log2 i).
  Proof.
    intros i Hi. pose proof (so_ppg _ SO i) as E. rewrite bd_d in E.
    etransitivity; [apply E, Hi |]. symmetry. apply prob_facts; auto. split; [apply Z.log2_nonneg |].
    fold d. assert (Z.log2 i < d - 1); [| lia]. apply Z.log2_lt_pow2; [lia |]. apply Hi.
  Qed.

  Lemma weights_pos : forall i, 1 <= i < heap_size (bd b) -> (0 < zget 0%R (p_propose_grow b) i)%R.
  Proof.
    intros i Hi. rewrite bd_d in Hi. rewrite weights by auto. apply P1. split; [apply Z.log2_nonneg |].
    apply Z.log2_lt_pow2; [lia |]. apply Hi.
  Qed.

  Lemma valid_b : forall i, decision (t_split t) i -> 0 <= entry (t_var t) i /\ valid_rule (t_var t) (t_split t) (max_split b) i.
  Proof. intros i D. rewrite ms_eq. destruct (RV i D) as [V R]. split; [apply V | exact R]. Qed.

  Lemma points_b : map (gather zmode) (X b) = pts.
  Proof. destruct (reached_fields s b RE) as (EX & _). unfold pts, points_of. now rewrite EX. Qed.
  Lemma minp_b : min_points_per_leaf b = mp.
  Proof. destruct (reached_fields s b RE) as (_ & _ & _ & E & _). exact E. Qed.

  (** ** The proposal *)

  Let mv (g : rng rops) := move_of (g := g) b km (Z.of_nat m, t).

  Lemma mv_nth : forall g, nth_error (sample_moves (g := g) b km) m = Some (mv g).
  Proof.
    intros g. rewrite sample_moves_map. unfold mv.
    exact (map_nth_error _ _ _ (nth_error_enumerate _ _ _ _ Ht)).
  Qed.

  Lemma after_nth : forall g, exists t', nth_error (trees (step (g := g) b k)) m = Some t' /\
    tree_after g = Some (structure d (t_var t') (t_split t')).
  Proof.
    intros g. unfold tree_after. destruct (nth_error (trees (step (g := g) b k)) m) as [t' |] eqn:E; [eauto |].
    exfalso. apply nth_error_None in E. pose proof (step_num_trees (g := g) b k) as L. unfold zlen in L.
    pose proof m_lt. lia.
  Qed.

  (** the proposal and its draws *)
  Lemma mv_grow : forall g, real_rng g -> forall n v c,
    let km0 := KSplit km (1 + ntree) 0 in
    let kt := KSplit km (1 + ntree) (1 + Z.of_nat m) in
    let gm := grow_move (g := g) (split_bits b) (t_var t) (t_split t) (t_aff t) (max_split b) (p_nonterminal b) (p_propose_grow b)
                (KSplit kt 2 0) in
    (m_grow (mv g) = true /\ m_node (mv g) = n /\ m_grow_var (mv g) = v /\ m_grow_split (mv g) = c <->
     (0 <= r_unif (rng := g) km0 (Z.of_nat m) < prob_grow d pts mp tr)%R /\
     (g_node gm = n /\ g_var gm = v /\ g_split gm = c)).
  Proof.
    intros g rr n v c km0 kt gm.
    pose proof (p_grow_value b SO HFb t TI weights_pos valid_b g rr (KSplit kt 2 0) (KSplit kt 2 1)) as PV. cbv zeta in PV.
    rewrite bd_d, points_b, minp_b in PV. fold gm in PV. fold tr in PV.
    set (pm := prune_move (t_split t) (t_aff t) (p_nonterminal b) (p_propose_grow b) (KSplit kt 2 1)) in PV.
    assert (EM : mv g = choose_move gm pm (r_unif (rng := g) km0 (Z.of_nat m))
                          (r_unif (rng := g) km0 (ntree + Z.of_nat m))) by reflexivity.
    rewrite EM. cbn [choose_move m_grow m_node m_grow_var m_grow_split].
    change (@fhalf rops) with (/ 2)%R. change (@f1 rops) with 1%R. change (@f0 rops) with 0%R.
    match goal with |- context [flt (r_unif km0 (Z.of_nat m)) ?x] => replace x with (prob_grow d pts mp tr : @F rops) end.
    cbn [flt rops]. pose proof (rr_unif (real_rng := rr) km0 (Z.of_nat m)) as U. split.
    - intros (H1 & H2). rewrite H1 in H2. apply Rltb_spec in H1. split; [lra | exact H2].
    - intros (H1 & H2). assert (E : Rltb (r_unif (rng := g) km0 (Z.of_nat m)) (prob_grow d pts mp tr) = true)
        by (apply Rltb_spec; lra). rewrite E. auto.
  Qed.

  Lemma mv_prune : forall g, real_rng g -> forall n,
    let km0 := KSplit km (1 + ntree) 0 in
    let kt := KSplit km (1 + ntree) (1 + Z.of_nat m) in
    let pm := prune_move (g := g) (t_split t) (t_aff t) (p_nonterminal b) (p_propose_grow b) (KSplit kt 2 1) in
    (m_grow (mv g) = false /\ m_node (mv g) = n <->
     (prob_grow d pts mp tr <= r_unif (rng := g) km0 (Z.of_nat m) < 1)%R /\ pr_node pm = n).
  Proof.
    intros g rr n km0 kt pm.
    pose proof (p_grow_value b SO HFb t TI weights_pos valid_b g rr (KSplit kt 2 0) (KSplit kt 2 1)) as PV. cbv zeta in PV.
    rewrite bd_d, points_b, minp_b in PV. fold pm in PV. fold tr in PV.
    set (gm := grow_move _ _ _ _ _ _ _ _) in PV.
    assert (EM : mv g = choose_move gm pm (r_unif (rng := g) km0 (Z.of_nat m))
                          (r_unif (rng := g) km0 (ntree + Z.of_nat m))) by reflexivity.
    rewrite EM. cbn [choose_move m_grow m_node].
    change (@fhalf rops) with (/ 2)%R. change (@f1 rops) with 1%R. change (@f0 rops) with 0%R.
    match goal with |- context [flt (r_unif km0 (Z.of_nat m)) ?x] => replace x with (prob_grow d pts mp tr : @F rops) end.
    cbn [flt rops]. pose proof (rr_unif (real_rng := rr) km0 (Z.of_nat m)) as U. split.
    - intros (H1 & H2). rewrite H1 in H2. split; [| exact H2].
      split; [| lra]. apply Rnot_lt_le. intros H. apply Rltb_spec in H. congruence.
    - intros (H1 & H2). assert (E : Rltb (r_unif (rng := g) km0 (Z.of_nat m)) (prob_grow d pts mp tr) = false).
      { destruct (Rltb _ _) eqn:E; auto. apply Rltb_spec in E. lra. }
      rewrite E. auto.
  Qed.

  (** ** The outcome *)

  Lemma d_pos : 1 <= d.
  Proof. pose proof d_range. lia. Qed.

  Lemma allowed_move : forall g, real_rng g ->
    (exists n, In n (growing_leaves d pts mp tr)) \/ (exists n, decision (t_split t) n) ->
    m_allowed (mv g) = true.
  Proof.
    intros g rr H. destruct (C12_proposals s b km m t (mv g) OK RE Ht (mv_nth g)) as (_ & _ & _ & _ & Q & _).
    apply Q. destruct H as [[n H] | H]; [left | now right]. exists n.
    pose proof (proj1 (In_G b SO t TI n)) as CG. rewrite bd_d, points_b, minp_b in CG. fold tr in CG.
    specialize (CG H). unfold affluent_leaf. destruct CG as (L & B & M). split; auto. rewrite bd_d in B.
    split; [exact B |]. intros c Hc. rewrite minp_b in M. specialize (M c Hc).
    rewrite (occ_points_in b I t n (nth_error_In _ _ Ht)) in M. unfold ProofForest.pts in M.
    rewrite points_b, bd_d in M. exact M.
  Qed.

  Section Outcome.
    Variable g : rng rops.
    Hypothesis rr : real_rng g.
    Hypothesis MA : m_allowed (mv g) = true.

    Lemma node_in : m_node (mv g) < 2 ^ (d - 1).
    Proof. exact (node_inside s b km m t (mv g) OK RE Ht (mv_nth g) MA P1). Qed.

    Lemma outcome : exists acc : bool,
      tree_after g = Some (if acc then structure_of d (proposed_rules t (mv g)) else structure_of d tr) /\
      (acc = true -> entry (snd (big_rules t (mv g))) (m_node (mv g)) <> 0).
    Proof.
      destruct (after_nth g) as (t' & Ht' & ->).
      destruct (Z.eq_dec (entry (snd (big_rules t (mv g))) (m_node (mv g))) 0) as [Z0 | NZ].
      - exists false. split; [| discriminate]. f_equal.
        exact (overflow_rejected s b OK RE k m t t' (mv g) Ht Ht' (mv_nth g) Z0).
      - destruct (mh_parts s b OK RE S2 k m t t' (mv g) Ht Ht' (mv_nth g) node_in NZ) as (q & _ & _ & _ & acc & _ & E).
        exists acc. split; auto. f_equal. exact E.
    Qed.

    Lemma move_kinds : entry (snd (big_rules t (mv g))) (m_node (mv g)) <> 0 ->
      (m_grow (mv g) = true /\ leaf_node (t_split t) (m_node (mv g)) /\ m_node (mv g) < heap_size d /\
         m_grow_split (mv g) <> 0 /\
         proposed_rules t (mv g) = (put (fst tr) (m_node (mv g)) (m_grow_var (mv g)),
                                    put (snd tr) (m_node (mv g)) (m_grow_split (mv g)))) \/
      (m_grow (mv g) = false /\ prunable t (m_node (mv g)) /\
         proposed_rules t (mv g) = (fst tr, put (snd tr) (m_node (mv g)) 0)).
    Proof.
      intros NZ. destruct (after_nth g) as (t' & Ht' & _).
      destruct (mv_facts s b OK RE k m t (mv g) Ht (mv_nth g)) as (MO & VE & ML & MR & NG).
      assert (NB : m_node (mv g) < heap_size (bd b)) by (rewrite bd_d; apply node_in).
      unfold proposed_rules, big_rules, small_rules.
      destruct (kinds b t TI (mv g) MO VE NB NZ) as [(MG & _ & CG & _) | (MG & _ & PR & _)].
      - left. rewrite MG. split; auto. destruct CG as (L & B & _). split; auto. split; [exact node_in |].
        split; [| reflexivity].
        unfold big_rules in NZ. rewrite MG in NZ. cbn [snd] in NZ.
        rewrite entry_put, Z.eqb_refl in NZ; auto; pose proof (reachable_pos _ _ (proj1 L)); try lia.
        split; [lia |]. rewrite (ti_split _ _ TI). exact NB.
      - right. rewrite MG. auto.
    Qed.
  End Outcome.

  Lemma like_exists : forall g tr', exists L, is_like g tr' L.
  Proof.
    intros g tr'.
    assert (NT : (0 < IZR ntree)%R) by (apply IZR_lt; unfold ntree, zlen; pose proof m_lt; lia).
    eexists. eexists. split; [| reflexivity]. intros i _. apply marginal_exact; auto.
  Qed.

  Lemma like_positive : forall g tr' L, is_like g tr' L -> (0 < L)%R.
  Proof.
    intros g tr' L H.
    assert (NT : (0 < IZR ntree)%R) by (apply IZR_lt; unfold ntree, zlen; pose proof m_lt; lia).
    set (f i := post_const (IZR ntree) (sigma2 b) (leaf_residuals d (others g) (fst tr') (snd tr') i data)).
    assert (H' : is_like g tr' (fold_right Rmult 1%R (map f (leaves (Z.to_nat d - 1) (snd tr') 1)))).
    { exists f. split; [| reflexivity]. intros i _. now apply marginal_exact. }
    rewrite (likelihood_unique _ _ _ _ _ _ _ _ H H'). apply prod_pos. intros i. now apply post_const_pos.
  Qed.

  Lemma stump_root : forall tr', shape d tr' ->
    is_stump (structure_of d tr') = true <-> ~ exists n, decision (snd tr') n.
  Proof.
    intros tr' (L1 & L2 & NS & Z0). pose proof d_range as Hd.
    unfold structure_of. rewrite <- bd_d in *. rewrite (stump_1 b SO _ _ L2). rewrite Z.eqb_eq. split.
    - intros E (n & D). pose proof (NS n D) as R. pose proof (reachable_pos _ _ R).
      assert (D1 : decision (snd tr') 1).
      { destruct (under_root n) as [-> | [b0 H']]; auto. eapply reachable_above; eauto; lia. }
      now apply D1.
    - intros H. apply not_decision_0; [lia |]. eauto.
  Qed.

  Lemma q_prune_positive : forall tr' n, shape d tr' ->
    decision (snd tr') n /\ ~ decision (snd tr') (2 * n) /\ ~ decision (snd tr') (2 * n + 1) ->
    (0 < q_prune d pts mp tr')%R.
  Proof.
    intros tr' n SH PN. unfold q_prune.
    assert (NP : 0 < leaf_parents (structure_of d tr')).
    { destruct SH as (L1 & L2 & NS & Z0). unfold structure_of, structure.
      rewrite leaf_parents_nodes by (try lia; now apply levels_fit; [apply d_pos |]).
      assert (H : In n (parent_nodes (Z.to_nat d - 1) (snd tr') 1)).
      { apply In_parent_nodes; auto; [lia | apply levels_fit; [apply d_pos | auto] |].
        split; auto. apply under_root. apply PN. }
      destruct (parent_nodes _ _ _); [destruct H |]. unfold zlen. cbn [length]. lia. }
    apply Rmult_lt_0_compat.
    - unfold prob_prune. destruct (is_stump (structure_of d tr')) eqn:E.
      + apply stump_root in E; auto. exfalso. apply E. exists n. apply PN.
      + destruct (growing_leaves _ _ _ _); lra.
    - apply Rdiv_lt_0_compat; [lra |]. now apply IZR_lt.
  Qed.

  (** ** Growth *)

  Lemma In_growing_leaf : forall n, In n (growing_leaves d pts mp tr) -> leaf_node (t_split t) n /\ 1 <= n < heap_size d.
  Proof.
    intros n Hn. pose proof (proj1 (In_G b SO t TI n)) as CG. rewrite bd_d, points_b, minp_b in CG. fold tr in CG.
    specialize (CG Hn). destruct CG as (L & B & _). rewrite bd_d in B. split; auto.
    pose proof (reachable_pos _ _ (proj1 L)). lia.
  Qed.

  Lemma p_last : p (d - 1) = 0%R.
  Proof. apply (prob_facts s b OK RE). Qed.

  Lemma prob_grow_cases : (exists n, In n (growing_leaves d pts mp tr)) ->
    (0 < prob_grow d pts mp tr <= 1)%R.
  Proof.
    intros [n Hn]. unfold prob_grow. destruct (growing_leaves d pts mp tr); [destruct Hn |].
    destruct (is_stump _); lra.
  Qed.

  Section Grow.
    Variables (n v c : Z).
    Hypothesis Hn : In n (growing_leaves d pts mp tr).
    Hypothesis Hv : In v (candidates bits ms (above (fst tr) (snd tr) n)).
    Hypothesis Hc : In c (cuts ms (above (fst tr) (snd tr) n) v).
    Let big := (put (fst tr) n v, put (snd tr) n c).
    Let LN : leaf_node (t_split t) n := proj1 (In_growing_leaf n Hn).
    Let NR : 1 <= n < heap_size d := proj2 (In_growing_leaf n Hn).

    Lemma c_pos : 1 <= c.
    Proof. apply In_cuts in Hc; [| lia]. apply Hc. Qed.

    Lemma grow_shape : shape d big.
    Proof. pose proof c_pos. apply big_shape; try lia; auto. apply tr_shape. Qed.

    Lemma grow_priors : (0 < prior d p w tr)%R /\ (0 < prior d p w big)%R.
    Proof.
      pose proof d_pos. pose proof c_pos. split; apply prior_positive; auto; try apply p_last.
      - apply tr_allowed.
      - apply (allowed_big d); try lia; auto; [apply tr_shape | apply tr_allowed].
    Qed.

    Lemma grow_prunable : decision (snd big) n /\ ~ decision (snd big) (2 * n) /\ ~ decision (snd big) (2 * n + 1).
    Proof.
      pose proof c_pos. pose proof tr_shape as SH.
      assert (BD := big_decision d tr n v c SH LN (proj2 NR) ltac:(lia)). fold big in BD.
      assert (ND : forall j, j = 2 * n \/ j = 2 * n + 1 -> ~ decision (snd tr) j).
      { intros j Hj D. destruct SH as (_ & _ & NS & _). pose proof (NS j D) as R.
        apply reachable_parent in R; [| lia]. destruct R as [_ R]. replace (j / 2) with n in R by lia. now apply LN in R. }
      rewrite !BD. split; [now right |]. split; (intros [D | D]; [revert D; apply ND; auto | lia]).
    Qed.

    Variables (g0 : rng rops) (Ls Lb : R).
    Hypothesis R0 : real_rng g0.
    Hypothesis HLs : is_like g0 tr Ls.
    Hypothesis HLb : is_like g0 big Lb.
    Let ratio := (prior d p w big * Lb * q_prune d pts mp big /
                  (prior d p w tr * Ls * q_grow d pts mp p w tr n v c))%R.
    Let enough := (c0 <=? points_in d pts (fst big) (snd big) (2 * n)) &&
                  (c0 <=? points_in d pts (fst big) (snd big) (2 * n + 1)).
    Let A := (if enough then Rmin 1 ratio else 0)%R.

    Lemma total_pos : (0 < p (Z.log2 n) /\
      p (Z.log2 n) <= rsum (map (fun i => p (Z.log2 i)) (growing_leaves d pts mp tr)))%R.
    Proof.
      assert (PP : forall i, In i (growing_leaves d pts mp tr) -> (0 < p (Z.log2 i))%R).
      { intros i Hi. apply In_growing_leaf in Hi. destruct Hi as [_ Hi]. apply P1.
        split; [apply Z.log2_nonneg |]. apply Z.log2_lt_pow2; [lia |]. apply Hi. }
      split; [auto |]. apply (rsum_member (fun i => p (Z.log2 i))); auto.
    Qed.

    Lemma q_grow_positive : (0 < q_grow d pts mp p w tr n v c)%R.
    Proof.
      unfold q_grow. pose proof (prob_grow_cases (ex_intro _ n Hn)). pose proof total_pos.
      apply Rmult_lt_0_compat; [apply Rmult_lt_0_compat; [lra |] |].
      - apply Rdiv_lt_0_compat; lra.
      - apply rule_probability_pos; auto.
    Qed.

    Lemma ratio_positive : (0 < ratio)%R.
    Proof.
      destruct grow_priors. pose proof q_grow_positive.
      pose proof (q_prune_positive big n grow_shape grow_prunable).
      pose proof (like_positive _ _ _ HLs). pose proof (like_positive _ _ _ HLb).
      apply Rdiv_lt_0_compat; (apply Rmult_lt_0_compat; [apply Rmult_lt_0_compat |]); auto.
    Qed.

    Lemma A_range : (0 <= A <= 1)%R.
    Proof.
      unfold A. pose proof ratio_positive. destruct enough; [| lra].
      split; [apply Rmin_glb; lra | apply Rmin_l].
    Qed.

    Section OneGen.
      Variable g : rng rops.
      Hypothesis rr : real_rng g.
      Hypothesis DF : differ_only_at sites g0 g.

      Let MA : m_allowed (mv g) = true := allowed_move g rr (or_introl (ex_intro _ n Hn)).

      Lemma grow_only : tree_after g = Some (structure_of d big) ->
        m_grow (mv g) = true /\ m_node (mv g) = n /\ m_grow_var (mv g) = v /\ m_grow_split (mv g) = c.
      Proof.
        pose proof c_pos as CP. pose proof d_pos as Hd. pose proof tr_shape as SH.
        intros E. destruct (outcome g rr MA) as (acc & Ea & AN). rewrite E in Ea. injection Ea as Ea.
        destruct acc.
        - destruct (move_kinds g rr MA (AN eq_refl)) as [(MG & L & B & NZ & EP) | (MG & PR & EP)]; rewrite EP in Ea.
          + unfold big in Ea. apply big_injective in Ea; auto; try lia. destruct Ea as (-> & -> & ->). auto.
          + exfalso. pose proof (small_shape d tr _ SH PR) as SS.
            pose proof (structure_alike d Hd _ _ grow_shape SS Ea) as [AE _].
            assert (D : decision (snd big) n) by apply grow_prunable.
            rewrite AE in D. apply (small_decision d tr _ SH PR) in D. destruct D as [D _]. now apply LN in D.
        - exfalso. revert Ea. apply big_differs; auto; lia.
      Qed.

      Lemma grow_accept :
        m_grow (mv g) = true /\ m_node (mv g) = n /\ m_grow_var (mv g) = v /\ m_grow_split (mv g) = c ->
        (tree_after g = Some (structure_of d big) <->
         (1 - A <= r_unif (rng := g) (KSplit km (1 + ntree) 0) (ntree + Z.of_nat m) < 1)%R).
      Proof.
        intros (MG & EN & EV & EC). pose proof c_pos as CP. pose proof d_pos as Hd. pose proof tr_shape as SH.
        destruct (after_nth g) as (t' & Ht' & ->).
        assert (ES : small_rules t (mv g) = tr) by (unfold small_rules; now rewrite MG).
        assert (EB : big_rules t (mv g) = big) by (unfold big_rules; rewrite MG, EN, EV, EC; reflexivity).
        assert (EP : proposed_rules t (mv g) = big) by (unfold proposed_rules; now rewrite MG).
        assert (NZg : entry (snd (big_rules t (mv g))) (m_node (mv g)) <> 0).
        { rewrite EB, EN. unfold big. rewrite (big_split d); auto; try lia. rewrite Z.eqb_refl. lia. }
        destruct grow_priors as [PS PB].
        pose proof (C46_acceptance s b k m t t' (mv g) w OK RE Ht Ht' (mv_nth g) MA NZg S2) as Q.
        cbv zeta in Q. rewrite ES, EB, EN, EP, MG in Q.
        destruct (Q P1 PS PB) as (U & ls & lb & H1 & H2 & RP & Q1 & Q2). clear Q.
        assert (EO : firstn m (trees (step (g := g) b k)) = firstn m (trees (step (g := g0) b k))).
        { symmetry. apply differ_prefix; [apply m_lt | exact DF]. }
        rewrite EO in H1, H2.
        assert (els : ls = Ls) by (eapply likelihood_unique; [exact H1 | exact HLs]).
        assert (elb : lb = Lb) by (eapply likelihood_unique; [exact H2 | exact HLb]). subst ls lb.
        assert (VN : entry (fst big) n = v).
        { unfold big. rewrite (big_var d); auto; try lia. now rewrite Z.eqb_refl. }
        assert (CN : entry (snd big) n = c).
        { unfold big. rewrite (big_split d); auto; try lia. now rewrite Z.eqb_refl. }
        rewrite VN, CN in *.
        fold pts mp d p data in RP, Q1, Q2. fold ratio in RP, Q1, Q2.
        set (u := r_unif (KSplit (moves_key k) (1 + zlen (trees b)) 0) (zlen (trees b) + Z.of_nat m)) in *.
        change (r_unif (KSplit km (1 + ntree) 0) (ntree + Z.of_nat m)) with u.
        assert (EQ : (1 - u <= ratio)%R /\ (forall c1, mp = Some c1 ->
             c1 <= points_in d pts (fst big) (snd big) (2 * n) /\
             c1 <= points_in d pts (fst big) (snd big) (2 * n + 1)) <-> (1 - A <= u < 1)%R).
        { unfold A, enough, mp. split.
          - intros [B1 B2]. destruct (B2 c0 Em) as [B3 B4].
            apply Z.leb_le in B3, B4. rewrite B3, B4. cbn [andb]. split; [| apply U].
            assert (1 - u <= Rmin 1 ratio)%R by (apply Rmin_glb; lra). lra.
          - intros [B1 _]. destruct (andb _ _) eqn:EE.
            + apply andb_true_iff in EE. rewrite !Z.leb_le in EE. pose proof (Rmin_r 1 ratio). split; [lra |].
              intros c1 E1. rewrite Em in E1. injection E1 as <-. exact EE.
            + lra. }
        rewrite <- EQ. split.
        - intros E. injection E as E.
          destruct (Classical_Prop.classic ((1 - u <= ratio)%R /\ (forall c1, mp = Some c1 ->
             c1 <= points_in d pts (fst big) (snd big) (2 * n) /\
             c1 <= points_in d pts (fst big) (snd big) (2 * n + 1)))) as [B | B]; auto. exfalso.
          apply Q2 in B. rewrite E in B. revert B. apply big_differs; auto; lia.
        - intros B. f_equal. apply Q1. exact B.
      Qed.
    End OneGen.

    Lemma grow_probability :
      has_probability sites g0 (fun g => tree_after g = Some (structure_of d big))
        (q_grow d pts mp p w tr n v c * A).
    Proof.
      pose proof c_pos as CP. pose proof d_pos as Hd. pose proof tr_shape as SH.
      pose proof (grow_draw b SO HFb t TI weights_pos valid_b n v c) as GD. cbv zeta in GD.
      rewrite bd_d, points_b, minp_b, ms_eq, bits_eq in GD. fold tr in GD.
      destruct (GD Hn Hv Hc) as (lo & jv & jc & LO & JV & JC & HG). clear GD.
      change (0 <= jv < Z.of_nat (length (candidates bits ms (above (fst tr) (snd tr) n)))) in JV.
      change (0 <= jc < Z.of_nat (length (cuts ms (above (fst tr) (snd tr) n) v))) in JC.
      assert (EW : zget 0%R (p_propose_grow b) n = p (Z.log2 n)) by (apply weights; auto).
      assert (ET : rsum (map (fun i => zget 0%R (p_propose_grow b) i) (growing_leaves d pts mp tr)) =
                   rsum (map (fun i => p (Z.log2 i)) (growing_leaves d pts mp tr))).
      { f_equal. apply map_ext_in. intros i Hi. apply weights. now apply In_growing_leaf. }
      rewrite EW, ET in *.
      set (total := rsum (map (fun i => p (Z.log2 i)) (growing_leaves d pts mp tr))) in *.
      pose proof (prob_grow_cases (ex_intro _ n Hn)) as PG. pose proof A_range as AR.
      set (km0 := KSplit km (1 + ntree) 0). set (kt := KSplit km (1 + ntree) (1 + Z.of_nat m)).
      exists [UnifIn km0 (Z.of_nat m) 0 (prob_grow d pts mp tr);
         UnifToIn (KSplit (KSplit kt 2 0) 3 0) total lo (lo + p (Z.log2 n));
         IntIs (KSplit (KSplit kt 2 0) 3 1) (Z.of_nat (length (candidates bits ms (above (fst tr) (snd tr) n)))) jv;
         IntIs (KSplit (KSplit kt 2 0) 3 2) (Z.of_nat (length (cuts ms (above (fst tr) (snd tr) n) v))) jc;
         IntIs (KSplit kt 2 1) 1 0;
         UnifIn km0 (ntree + Z.of_nat m) (1 - A) 1].
      split; [| split; [| split]].
      - repeat apply Forall_cons; try apply Forall_nil; cbn [proper]; try lra; try lia.
      - reflexivity.
      - cbn [map chance fold_right]. unfold q_grow, w, rule_probability. fold total.
        destruct (in_dec Z.eq_dec v _); [| contradiction]. destruct (in_dec Z.eq_dec c _); [| contradiction].
        assert (0 < IZR (Z.of_nat (length (candidates bits ms (above (fst tr) (snd tr) n)))))%R by (apply IZR_lt; lia).
        assert (0 < IZR (Z.of_nat (length (cuts ms (above (fst tr) (snd tr) n) v))))%R by (apply IZR_lt; lia).
        field. repeat split; lra.
      - intros g rr DF.
        pose proof (mv_grow g rr n v c) as MG. cbv zeta in MG. fold km0 kt in MG.
        specialize (HG g rr (KSplit kt 2 0)). cbv zeta in HG. rewrite ms_eq, bits_eq, HG in MG.
        assert (FH : forall P1 P2 P3 P4 P5 P6 : Prop, P5 ->
          (P1 /\ P2 /\ P3 /\ P4) /\ P6 <-> P1 /\ P2 /\ P3 /\ P4 /\ P5 /\ P6) by tauto.
        assert (F : Forall (holds g) [UnifIn km0 (Z.of_nat m) 0 (prob_grow d pts mp tr);
           UnifToIn (KSplit (KSplit kt 2 0) 3 0) total lo (lo + p (Z.log2 n));
           IntIs (KSplit (KSplit kt 2 0) 3 1) (Z.of_nat (length (candidates bits ms (above (fst tr) (snd tr) n)))) jv;
           IntIs (KSplit (KSplit kt 2 0) 3 2) (Z.of_nat (length (cuts ms (above (fst tr) (snd tr) n) v))) jc;
           IntIs (KSplit kt 2 1) 1 0;
           UnifIn km0 (ntree + Z.of_nat m) (1 - A) 1] <->
          (m_grow (mv g) = true /\ m_node (mv g) = n /\ m_grow_var (mv g) = v /\ m_grow_split (mv g) = c) /\
          (1 - A <= r_unif (rng := g) km0 (ntree + Z.of_nat m) < 1)%R).
        { rewrite !Forall_cons_iff. rewrite MG. cbn [holds]. rewrite Z.mod_1_r. intuition. }
        rewrite F. split.
        + intros E. pose proof (grow_only g rr E) as M. split; auto. now apply (grow_accept g rr DF M).
        + intros [M B]. now apply (grow_accept g rr DF M).
    Qed.
  End Grow.

  (** ** Pruning *)
  Section Prune.
    Variable n : Z.
    Hypothesis PN : prunable t n.
    Let small := (fst tr, put (snd tr) n 0).
    Let v := entry (fst tr) n.
    Let c := entry (snd tr) n.

    Lemma prune_range : 1 <= n < heap_size d.
    Proof. apply (small_leaf d tr n tr_shape PN). Qed.

    Lemma prune_shape : shape d small.
    Proof. exact (small_shape d tr n tr_shape PN). Qed.

    Lemma prune_priors : (0 < prior d p w small)%R /\ (0 < prior d p w tr)%R.
    Proof.
      pose proof d_pos. split; apply prior_positive; auto; try apply p_last.
      - apply (allowed_small d); auto; [apply tr_shape | apply tr_allowed].
      - apply tr_allowed.
    Qed.

    Lemma leaf_points : forall i, leaf_node (t_split t) i -> c0 <= points_in d pts (t_var t) (t_split t) i.
    Proof.
      intros i L. apply (C08_min_points_per_leaf s b t c0 OK RE (nth_error_In _ _ Ht) Em); auto.
      exists n. apply PN.
    Qed.

    Lemma child_leaves : leaf_node (t_split t) (2 * n) /\ leaf_node (t_split t) (2 * n + 1).
    Proof.
      destruct PN as (D & D1 & D2). pose proof (ti_stray _ _ TI n D) as R.
      split; split; auto; [constructor 2 | constructor 3]; auto.
    Qed.

    Lemma small_grows : In n (growing_leaves d pts mp small).
    Proof.
      pose proof prune_range as NR. pose proof prune_shape as (L1 & L2 & NS & Z0). pose proof tr_shape as (T1 & T2 & _).
      pose proof (In_growing b SO small) as IG. rewrite bd_d, points_b, minp_b in IG. apply IG; auto.
      split; [apply (small_leaf d tr n tr_shape PN) |]. split; [lia |].
      intros k0 Ek. unfold mp in Ek. rewrite Em in Ek. injection Ek as <-.
      assert (E : map (fun x => traverse_tree x (fst small) (snd small)) (X b) =
                  map (collapse n) (map (fun x => traverse_tree x (fst tr) (snd tr)) (X b))).
      { rewrite map_map. apply map_ext. intros x. unfold collapse. pose proof d_range.
        destruct PN as (Q1 & Q2 & Q3).
        refine (traverse_prune d ltac:(lia) x _ _ _ _ n _ _ _ _ _ _ _ Q1 Q2 Q3); auto; try lia.
        intros i Hi. pose proof (small_split d tr n tr_shape PN i ltac:(lia)) as SS. exact SS. }
      rewrite E, occ_collapse_node by lia.
      assert (PI : forall i, points_in d pts (fst tr) (snd tr) i = occ (map (fun x => traverse_tree x (fst tr) (snd tr)) (X b)) i).
      { intros i. pose proof (points_in_occ b SO (fst tr) (snd tr) i) as PO. rewrite bd_d, points_b in PO. now apply PO. }
      rewrite <- !PI. destruct child_leaves as [C1 C2].
      pose proof (leaf_points _ C1) as K1. pose proof (leaf_points _ C2) as K2. cbn [tr fst snd] in *.
      assert (0 <= points_in d pts (t_var t) (t_split t) n) by (unfold points_in; lia). lia.
    Qed.

    Variables (g0 : rng rops) (Ls Lb : R).
    Hypothesis R0 : real_rng g0.
    Hypothesis HLs : is_like g0 small Ls.
    Hypothesis HLb : is_like g0 tr Lb.
    Let ratio := (prior d p w small * Ls * q_grow d pts mp p w small n v c /
                  (prior d p w tr * Lb * q_prune d pts mp tr))%R.
    Let A := Rmin 1 ratio.

    Lemma growing_small_range : forall i, In i (growing_leaves d pts mp small) -> 1 <= i < heap_size d.
    Proof.
      intros i Hi. pose proof prune_shape as (L1 & L2 & NS & Z0).
      pose proof (In_growing b SO small) as IG. rewrite bd_d, points_b, minp_b in IG. apply IG in Hi; auto.
      destruct Hi as (L & B & _). pose proof (reachable_pos _ _ (proj1 L)). lia.
    Qed.

    Lemma small_q_grow : (0 < q_grow d pts mp p w small n v c)%R.
    Proof.
      unfold q_grow. pose proof small_grows as SG.
      assert (PP : forall i, In i (growing_leaves d pts mp small) -> (0 < p (Z.log2 i))%R).
      { intros i Hi. apply growing_small_range in Hi. apply P1.
        split; [apply Z.log2_nonneg |]. apply Z.log2_lt_pow2; [lia |]. apply Hi. }
      pose proof (rsum_member (fun i => p (Z.log2 i)) _ n SG PP) as RM. pose proof (PP n SG).
      apply Rmult_lt_0_compat; [apply Rmult_lt_0_compat |].
      - unfold prob_grow. destruct (growing_leaves d pts mp small); [destruct SG |]. destruct (is_stump _); lra.
      - apply Rdiv_lt_0_compat; lra.
      - pose proof tr_allowed as AL. destruct (AL n (proj1 PN)) as [A1 A2].
        assert (EA : above (fst small) (snd small) n = above (fst tr) (snd tr) n).
        { apply (above_ext_desc d d_pos); [apply prune_range |]. intros a b0 Ha Hb. split; auto.
          pose proof (small_split d tr n tr_shape PN a ltac:(lia)) as SS. unfold small. rewrite SS.
          apply descends_gt in Hb; auto. destruct (Z.eqb_spec a n); [lia | auto]. }
        rewrite EA. apply rule_probability_pos; auto.
    Qed.

    Lemma ratio_pos' : (0 < ratio)%R.
    Proof.
      destruct prune_priors. pose proof small_q_grow.
      pose proof (q_prune_positive tr n tr_shape PN).
      pose proof (like_positive _ _ _ HLs). pose proof (like_positive _ _ _ HLb).
      apply Rdiv_lt_0_compat; (apply Rmult_lt_0_compat; [apply Rmult_lt_0_compat |]); auto.
    Qed.

    Lemma A_range' : (0 <= A <= 1)%R.
    Proof. unfold A. pose proof ratio_pos'. split; [apply Rmin_glb; lra | apply Rmin_l]. Qed.

    Section OneGen.
      Variable g : rng rops.
      Hypothesis rr : real_rng g.
      Hypothesis DF : differ_only_at sites g0 g.

      Let MA : m_allowed (mv g) = true := allowed_move g rr (or_intror (ex_intro _ n (proj1 PN))).

      Lemma tr_small_differ : structure_of d small <> structure_of d tr.
      Proof.
        intros E. pose proof (structure_alike d d_pos _ _ prune_shape tr_shape E) as [AE _].
        pose proof (proj1 PN) as D. change (decision (snd tr) n) in D. rewrite <- AE in D.
        apply (small_decision d tr n tr_shape PN) in D. tauto.
      Qed.

      Lemma prune_only : tree_after g = Some (structure_of d small) ->
        m_grow (mv g) = false /\ m_node (mv g) = n.
      Proof.
        pose proof d_pos as Hd. pose proof tr_shape as SH.
        intros E. destruct (outcome g rr MA) as (acc & Ea & AN). rewrite E in Ea. injection Ea as Ea.
        destruct acc; [| exfalso; now apply tr_small_differ].
        destruct (move_kinds g rr MA (AN eq_refl)) as [(MG & L & B & NZ & EP) | (MG & PR & EP)]; rewrite EP in Ea.
        - exfalso. pose proof (proj1 PN) as D.
          pose proof (structure_alike d Hd _ _ prune_shape (big_shape d tr _ (m_grow_var (mv g)) _ SH L B NZ) Ea) as [AE _].
          assert (D' : decision (snd small) n).
          { rewrite AE. apply (big_decision d tr _ (m_grow_var (mv g)) _ SH L B NZ). now left. }
          apply (small_decision d tr n SH PN) in D'. tauto.
        - split; auto. pose proof (structure_alike d Hd _ _ prune_shape (small_shape d tr _ SH PR) Ea) as [AE _].
          destruct (Z.eq_dec (m_node (mv g)) n) as [| NE]; auto. exfalso.
          pose proof (proj1 PN) as D. assert (D' : decision (snd small) n).
          { rewrite AE. apply (small_decision d tr _ SH PR). split; auto. }
          apply (small_decision d tr n SH PN) in D'. tauto.
      Qed.

      Lemma prune_accept : m_grow (mv g) = false /\ m_node (mv g) = n ->
        (tree_after g = Some (structure_of d small) <->
         (1 - A <= r_unif (rng := g) (KSplit km (1 + ntree) 0) (ntree + Z.of_nat m) < 1)%R).
      Proof.
        intros (MG & EN). pose proof d_pos as Hd. pose proof tr_shape as SH.
        destruct (after_nth g) as (t' & Ht' & ->).
        assert (ES : small_rules t (mv g) = small) by (unfold small_rules; rewrite MG, EN; reflexivity).
        assert (EB : big_rules t (mv g) = tr) by (unfold big_rules; now rewrite MG).
        assert (EP : proposed_rules t (mv g) = small) by (unfold proposed_rules; now rewrite MG).
        assert (NZp : entry (snd (big_rules t (mv g))) (m_node (mv g)) <> 0)
          by (rewrite EB, EN; apply (proj1 PN)).
        destruct prune_priors as [PS PB].
        pose proof (C46_acceptance s b k m t t' (mv g) w OK RE Ht Ht' (mv_nth g) MA NZp S2) as Q.
        cbv zeta in Q. rewrite ES, EB, EN, EP, MG in Q.
        destruct (Q P1 PS PB) as (U & ls & lb & H1 & H2 & RP & Q1 & Q2). clear Q.
        assert (EO : firstn m (trees (step (g := g) b k)) = firstn m (trees (step (g := g0) b k))).
        { symmetry. apply differ_prefix; [apply m_lt | exact DF]. }
        rewrite EO in H1, H2.
        assert (els : ls = Ls) by (eapply likelihood_unique; [exact H1 | exact HLs]).
        assert (elb : lb = Lb) by (eapply likelihood_unique; [exact H2 | exact HLb]). subst ls lb.
        fold pts mp d p data in RP, Q1, Q2. fold v c in RP, Q1, Q2.
        assert (IR : (/ (prior d p w tr * Lb * q_prune d pts mp tr /
                   (prior d p w small * Ls * q_grow d pts mp p w small n v c)) = ratio)%R).
        { unfold ratio. destruct prune_priors. pose proof small_q_grow.
          pose proof (q_prune_positive tr n tr_shape PN).
          pose proof (like_positive _ _ _ HLs). pose proof (like_positive _ _ _ HLb).
          field. repeat split; apply Rgt_not_eq; assumption. }
        rewrite IR in Q1, Q2.
        set (u := r_unif (KSplit (moves_key k) (1 + zlen (trees b)) 0) (zlen (trees b) + Z.of_nat m)) in *.
        change (r_unif (KSplit km (1 + ntree) 0) (ntree + Z.of_nat m)) with u.
        destruct child_leaves as [C1 C2].
        assert (EQ : (1 - u <= ratio)%R /\ (forall c1, mp = Some c1 ->
             c1 <= points_in d pts (fst tr) (snd tr) (2 * n) /\
             c1 <= points_in d pts (fst tr) (snd tr) (2 * n + 1)) <-> (1 - A <= u < 1)%R).
        { unfold A. split.
          - intros [B1 _]. split; [| apply U].
            assert (1 - u <= Rmin 1 ratio)%R by (apply Rmin_glb; lra). lra.
          - intros [B1 _]. pose proof (Rmin_r 1 ratio). split; [lra |].
            intros c1 E1. unfold mp in E1. rewrite Em in E1. injection E1 as <-.
            split; [now apply leaf_points | now apply leaf_points]. }
        rewrite <- EQ. split.
        - intros E. injection E as E.
          destruct (Classical_Prop.classic ((1 - u <= ratio)%R /\ (forall c1, mp = Some c1 ->
             c1 <= points_in d pts (fst tr) (snd tr) (2 * n) /\
             c1 <= points_in d pts (fst tr) (snd tr) (2 * n + 1)))) as [B | B]; auto. exfalso.
          apply Q2 in B. rewrite E in B. now apply tr_small_differ.
        - intros B. f_equal. apply Q1. exact B.
      Qed.
    End OneGen.

    Lemma prob_sum : prob_prune d pts mp tr = (1 - prob_grow d pts mp tr)%R /\ (0 <= prob_grow d pts mp tr <= 1)%R.
    Proof.
      unfold prob_prune, prob_grow. destruct (is_stump (structure_of d tr)) eqn:E.
      - exfalso. apply (stump_root tr tr_shape) in E. apply E. exists n. apply PN.
      - destruct (growing_leaves _ _ _ _); lra.
    Qed.

    Lemma prune_probability :
      has_probability sites g0 (fun g => tree_after g = Some (structure_of d small))
        (q_prune d pts mp tr * A).
    Proof.
      pose proof (prune_draw b SO HFb t TI weights_pos valid_b n PN) as PD. cbv zeta in PD.
      rewrite bd_d in PD. fold tr in PD. change (structure d (t_var t) (t_split t)) with (structure_of d tr) in PD.
      destruct PD as (j & J & HP). set (np := leaf_parents (structure_of d tr)) in *.
      destruct prob_sum as [PS PG]. pose proof A_range' as AR.
      set (km0 := KSplit km (1 + ntree) 0). set (kt := KSplit km (1 + ntree) (1 + Z.of_nat m)).
      exists [UnifIn km0 (Z.of_nat m) (prob_grow d pts mp tr) 1;
         UnifToIn (KSplit (KSplit kt 2 0) 3 0) 1 0 1;
         IntIs (KSplit (KSplit kt 2 0) 3 1) 1 0; IntIs (KSplit (KSplit kt 2 0) 3 2) 1 0;
         IntIs (KSplit kt 2 1) np j;
         UnifIn km0 (ntree + Z.of_nat m) (1 - A) 1].
      split; [| split; [| split]].
      - repeat apply Forall_cons; try apply Forall_nil; cbn [proper]; try lra; try lia.
      - reflexivity.
      - cbn [map chance fold_right]. unfold q_prune. fold np. rewrite PS.
        assert (0 < IZR np)%R by (apply IZR_lt; lia). field. lra.
      - intros g rr DF.
        pose proof (mv_prune g rr n) as MG. cbv zeta in MG. fold km0 kt in MG.
        rewrite (HP g (KSplit kt 2 1)) in MG.
        assert (F : Forall (holds g) [UnifIn km0 (Z.of_nat m) (prob_grow d pts mp tr) 1;
           UnifToIn (KSplit (KSplit kt 2 0) 3 0) 1 0 1;
           IntIs (KSplit (KSplit kt 2 0) 3 1) 1 0; IntIs (KSplit (KSplit kt 2 0) 3 2) 1 0;
           IntIs (KSplit kt 2 1) np j;
           UnifIn km0 (ntree + Z.of_nat m) (1 - A) 1] <->
          (m_grow (mv g) = false /\ m_node (mv g) = n) /\
          (1 - A <= r_unif (rng := g) km0 (ntree + Z.of_nat m) < 1)%R).
        { pose proof (rr_unif_to (real_rng := rr) (KSplit (KSplit kt 2 0) 3 0) 1%R ltac:(lra)) as U1.
          rewrite !Forall_cons_iff. rewrite MG. cbn [holds]. rewrite !Z.mod_1_r. intuition. }
        rewrite F. split.
        + intros E. pose proof (prune_only g rr E) as M. split; auto. now apply (prune_accept g rr DF M).
        + intros [M B]. now apply (prune_accept g rr DF M).
    Qed.
  End Prune.
End Update.
