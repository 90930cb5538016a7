(** Detailed balance of the update of one tree. *)
From Coq Require Import ZArith List Bool Lia Reals Lra.
From Verif Require Import Base LemBase ModelJaxext ModelGrove ModelStep SpecTree
  SpecRange SpecForest SpecRun SpecPosterior SpecProposal SpecExact SpecMH SpecChance SpecBalance Laws
  ProofTree ProofStep ProofRun ProofForest ProofTransition ProofMoves PropForest PropMH ProofChance ProofProb ProofShape ProofBalance.
Import ListNotations.
Open Scope Z_scope.

Lemma likelihood_ext : forall d pv s2 o o' data tr M, (forall x, predict_sum d o x = predict_sum d o' x) ->
  is_tree_likelihood d pv s2 o data tr M -> is_tree_likelihood d pv s2 o' data tr M.
Proof.
  intros d pv s2 o o' data tr M E (f & H & ->). exists f. split; auto. intros i Hi. specialize (H i Hi).
  unfold leaf_residuals in *. erewrite map_ext; [exact H |]. intros xy. cbv beta. now rewrite E.
Qed.

Lemma probability_ext : forall l g E E' q, (forall g', real_rng g' -> (E g' <-> E' g')) ->
  has_probability l g E q -> has_probability l g E' q.
Proof.
  intros l g E E' q H (cs & P & S & Q & R). exists cs. repeat (split; auto); rewrite <- H by auto; apply R; auto.
Qed.

Lemma draws_nodup {zo : zoob} {foo : foob rops} : forall b k m t, nth_error (trees b) m = Some t -> NoDup (draws_of_tree b k m).
Proof.
  intros b k m t H. apply tree_sites_nodup. apply nth_error_In in H.
  destruct (trees b); [destruct H | unfold zlen; cbn [length]; lia].
Qed.

Lemma possible_probability : forall l g E q g', has_probability l g E q ->
  real_rng g' -> differ_only_at l g g' -> E g' -> (0 < q)%R.
Proof.
  intros l g E q g' (cs & P & S & -> & H) R D B. apply (H g' R D) in B. clear H S D.
  induction P as [| c cs Pc P IH]; cbn [map fold_right]; [lra |].
  inversion B as [| ? ? B1 B2]; subst. apply Rmult_lt_0_compat; [| now apply IH].
  destruct c; cbn [proper holds chance] in *; try lra.
  - apply Rdiv_lt_0_compat; lra.
  - apply Rdiv_lt_0_compat; [lra |]. apply IZR_lt. lia.
Qed.

Lemma probability_01 : forall l g E q, has_probability l g E q -> (0 <= q <= 1)%R.
Proof.
  intros l g E q H. split; [exact (probability_range _ _ _ _ H) |]. destruct H as (cs & P & _ & -> & _).
  induction P as [| c cs Pc P IH]; cbn [map fold_right]; [lra |].
  assert (0 <= fold_right Rmult 1 (map chance cs))%R.
  { clear IH. induction P; cbn [map fold_right]; [lra |]. apply Rmult_le_pos; auto. now apply chance_nonneg. }
  assert (C : (0 <= chance c <= 1)%R).
  { split; [now apply chance_nonneg |]. destruct c as [k i a b | k hi a b | k n j]; cbn [proper chance] in *; try lra.
    - apply Rmult_le_reg_r with hi; [lra |]. unfold Rdiv. rewrite Rmult_assoc, Rinv_l; lra.
    - assert (1 <= IZR n)%R by (apply IZR_le; lia).
      apply Rmult_le_reg_r with (IZR n); [lra |]. unfold Rdiv. rewrite Rmult_assoc, Rinv_l; lra. }
  apply Rle_trans with (1 * 1)%R; [| lra]. apply Rmult_le_compat; lra.
Qed.

Lemma becomes_after {zo : zoob} {foo : foob rops} : forall s b k m T (g : rng rops),
  becomes s b k m T g <-> tree_after s b k m g = Some T.
Proof.
  intros s b k m T g. unfold becomes, tree_after. split.
  - intros (t1 & -> & E). cbn [option_map]. f_equal. exact E.
  - destruct (nth_error (trees (step b k)) m) as [t1 |]; [| discriminate]. cbn [option_map]. intros E. injection E as E.
    exists t1. auto.
Qed.

Definition some_rng : rng rops :=
  {| r_unif := fun _ _ => 0%R : @F rops; r_unif_to := fun _ _ => 0%R : @F rops; r_bits := fun _ => 0;
     r_normal := fun _ _ => 0%R : @F rops; r_gamma := fun _ _ => 1%R : @F rops |}.

Section Detailed.
  Context {zo : zoob} {foo : foob rops}.
  Variables (s : @settings rops) (c0 : Z).
  Hypothesis RG : regular s c0.
  Let OK := rg_ok _ _ RG.
  Let d := depth_of s.
  Let p := nonterminal s.
  Let ms := i_max_split s.
  Let bits := i_split_bits s.
  Let w := rule_probability bits ms.
  Let pts := points_of s.
  Let mp := i_min_points s.
  Let data := combine pts (i_y s).

  Lemma rules_ok : forall b m t, reached s b -> nth_error (trees b) m = Some t ->
    forall i, decision (snd (rules_of t)) i ->
      0 <= entry (fst (rules_of t)) i < zlen ms /\ valid_rule (fst (rules_of t)) (snd (rules_of t)) ms i.
  Proof.
    intros b m t RE Ht i D.
    destruct (C10_rules_valid s b t c0 OK RE (nth_error_In _ _ Ht) (rg_min _ _ RG) (rg_one _ _ RG)
      (rg_len _ _ RG) (rg_bins _ _ RG) i D) as (H1 & _ & H2). split; auto.
  Qed.

  Lemma shape_reached : forall b m t, reached s b -> nth_error (trees b) m = Some t -> shape d (rules_of t).
  Proof. intros b m t RE Ht. exact (tr_shape s b OK RE m t Ht). Qed.

  Section Pair.
    Variables (b b' : @bart rops) (m m' : nat) (t t' : @tree rops).
    Hypothesis RE : reached s b.
    Hypothesis RE' : reached s b'.
    Hypothesis Ht : nth_error (trees b) m = Some t.
    Hypothesis Ht' : nth_error (trees b') m' = Some t'.
    Let tr := rules_of t.
    Let tr' := rules_of t'.
    Variable n : Z.
    Hypothesis LN : leaf_node (snd tr) n.
    Hypothesis NR : 1 <= n < heap_size d.
    Hypothesis PN : decision (snd tr') n /\ ~ decision (snd tr') (2 * n) /\ ~ decision (snd tr') (2 * n + 1).
    Let v := entry (fst tr') n.
    Let c := entry (snd tr') n.
    Let big := (put (fst tr) n v, put (snd tr) n c).
    Let small := (fst tr', put (snd tr') n 0).
    Hypothesis AB : alike big tr'.
    Hypothesis AS : alike tr small.

    Let d_ge : 1 <= d.
    Proof. pose proof (d_range s b OK RE) as H. cbv zeta in H. fold d in H. lia. Qed.

    Lemma pair_growing : In n (growing_leaves d pts mp tr).
    Proof.
      rewrite (alike_growing d pts mp tr small AS).
      exact (small_grows s b' OK RE' (KRoot 0) m' t' Ht' (rg_prob _ _ RG) c0 (rg_min _ _ RG) (rg_first _ _ RG) (rules_ok b' m' t' RE' Ht') n PN).
    Qed.

    Lemma pair_above : above (fst tr) (snd tr) n = above (fst tr') (snd tr') n.
    Proof.
      pose proof (shape_reached b m t RE Ht) as SH. pose proof (shape_reached b' m' t' RE' Ht') as SH'.
      assert (CN : c <> 0) by apply PN.
      pose proof (big_above d d_ge tr n v c SH LN (proj2 NR) n (proj1 LN)) as E1. fold big in E1. rewrite <- E1.
      apply (alike_above d d_ge); auto. rewrite (proj1 AB). destruct SH' as (_ & _ & NS & _). apply NS, PN.
    Qed.

    Lemma pair_rule : In v (candidates bits ms (above (fst tr) (snd tr) n)) /\ In c (cuts ms (above (fst tr) (snd tr) n) v).
    Proof.
      rewrite pair_above. pose proof (valid_allowed bits ms tr' (rules_ok b' m' t' RE' Ht')) as AL.
      apply (AL n). apply PN.
    Qed.

    Let qg := q_grow d pts mp p w tr n v c.
    Let qp := q_prune d pts mp tr'.

    Lemma pair_positive : (0 < qg /\ 0 < qp /\ 0 < prior d p w tr /\ 0 < prior d p w tr')%R.
    Proof.
      destruct pair_rule as [R1 R2]. pose proof pair_growing as PG.
      split; [| split; [| split]].
      - exact (q_grow_positive s b OK RE (KRoot 0) m t Ht (rg_prob _ _ RG) (rg_first _ _ RG) (rules_ok b m t RE Ht) n v c PG R1 R2 some_rng).
      - exact (q_prune_positive s b' OK RE' (KRoot 0) m' t' (rg_prob _ _ RG) (rg_first _ _ RG) (rules_ok b' m' t' RE' Ht') tr' n
          (shape_reached b' m' t' RE' Ht') PN).
      - exact (proj1 (grow_priors s b OK RE (KRoot 0) m t Ht (rg_prob _ _ RG) (rg_first _ _ RG) (rules_ok b m t RE Ht) n v c PG R1 R2)).
      - exact (proj2 (prune_priors s b' OK RE' (KRoot 0) m' t' Ht' (rg_prob _ _ RG) (rg_first _ _ RG) (rules_ok b' m' t' RE' Ht') n PN)).
    Qed.

    Section Growth.
      Variables (k : key) (g : rng rops) (L L' : R).
      Hypothesis S2 : (0 < sigma2 b)%R.
      Hypothesis RR : real_rng g.
      Let is_like := is_tree_likelihood d (1 / IZR (zlen (trees b))) (sigma2 b)
        (firstn m (trees (step (g := g) b k)) ++ skipn (S m) (trees b)) data.
      Hypothesis HL : is_like tr L.
      Hypothesis HL' : is_like tr' L'.

      Lemma pair_grow :
        has_probability (draws_of_tree b k m) g (becomes s b k m (shape_of s t'))
          (qg * Rmin 1 (prior d p w tr' * L' * qp / (prior d p w tr * L * qg))).
      Proof.
        destruct pair_rule as [R1 R2]. pose proof pair_growing as PG.
        pose proof (grow_probability s b OK RE S2 k m t Ht (rg_prob _ _ RG) c0 (rg_min _ _ RG) (rg_first _ _ RG) (rules_ok b m t RE Ht)
          n v c PG R1 R2 g L L' RR HL (alike_likelihood d _ _ _ _ _ _ _ (alike_sym _ _ AB) HL')) as Q.
        cbv zeta in Q. change (put (fst (t_var t, t_split t)) n v, put (snd (t_var t, t_split t)) n c) with big in Q.
        fold d pts in Q.
        rewrite !(alike_points d pts big tr' _ AB) in Q.
        destruct (child_leaves s b' OK RE' m' t' Ht' n PN) as [C1 C2].
        pose proof (leaf_points s b' OK RE' m' t' Ht' c0 (rg_min _ _ RG) n PN _ C1) as K1.
        pose proof (leaf_points s b' OK RE' m' t' Ht' c0 (rg_min _ _ RG) n PN _ C2) as K2.
        apply Z.leb_le in K1, K2. unfold tr', rules_of in Q. cbn [fst snd] in Q. unfold pts, d in Q. rewrite K1, K2 in Q.
        cbn [andb] in Q. fold d pts in Q.
        change (prob_nonterminal s) with p in Q. fold ms bits w mp in Q.
        rewrite (alike_prior d p w big tr' AB), (alike_q_prune d pts mp big tr' AB), (alike_structure d big tr' AB) in Q.
        eapply probability_ext; [| exact Q]. intros g' _. unfold becomes, tree_after.
        split.
        - destruct (nth_error (trees (step b k)) m) as [t1 |]; [| discriminate]. cbn [option_map]. intros E. injection E as E.
          exists t1. auto.
        - intros (t1 & -> & E). cbn [option_map]. f_equal. exact E.
      Qed.
    End Growth.

    Section Pruning.
      Variables (k : key) (g : rng rops) (L L' : R).
      Hypothesis S2 : (0 < sigma2 b')%R.
      Let is_like := is_tree_likelihood d (1 / IZR (zlen (trees b'))) (sigma2 b')
        (firstn m' (trees (step (g := g) b' k)) ++ skipn (S m') (trees b')) data.
      Hypothesis HL : is_like tr L.
      Hypothesis HL' : is_like tr' L'.

      Lemma pair_prune :
        has_probability (draws_of_tree b' k m') g (becomes s b' k m' (shape_of s t))
          (qp * Rmin 1 (prior d p w tr * L * qg / (prior d p w tr' * L' * qp))).
      Proof.
        pose proof (prune_probability s b' OK RE' S2 k m' t' Ht' (rg_prob _ _ RG) c0 (rg_min _ _ RG) (rg_first _ _ RG) (rules_ok b' m' t' RE' Ht')
          n PN g L L' (alike_likelihood d _ _ _ _ _ _ _ AS HL) HL') as Q.
        cbv zeta in Q. change (fst (t_var t', t_split t'), put (snd (t_var t', t_split t')) n 0) with small in Q.
        fold d pts in Q. change (prob_nonterminal s) with p in Q. fold ms bits w mp in Q.
        rewrite <- (alike_prior d p w tr small AS), <- (alike_structure d tr small AS) in Q.
        rewrite <- (alike_q_grow d d_ge pts mp p w tr small n _ _ AS (proj1 LN)) in Q.
        eapply probability_ext; [| exact Q]. intros g' _. unfold becomes, tree_after.
        split.
        - destruct (nth_error (trees (step b' k)) m') as [t1 |]; [| discriminate]. cbn [option_map]. intros E. injection E as E.
          exists t1. auto.
        - intros (t1 & -> & E). cbn [option_map]. f_equal. exact E.
      Qed.
    End Pruning.
  End Pair.

  (** Two trees, one of which grows to the other *)
  Lemma balance_grow : forall b b' m t t' k k' (g g' : rng rops) M M' q q',
    reached s b -> reached s b' -> real_rng g -> real_rng g' ->
    nth_error (trees b) m = Some t -> nth_error (trees b') m = Some t' ->
    (0 < sigma2 b)%R -> sigma2 b' = sigma2 b ->
    (forall x, others_value s b k m g x = others_value s b' k' m g' x) ->
    grows_to (shape_of s t) (shape_of s t') ->
    is_tree_posterior s b k m g (rules_of t) M -> is_tree_posterior s b k m g (rules_of t') M' ->
    has_probability (draws_of_tree b k m) g (becomes s b k m (shape_of s t')) q ->
    has_probability (draws_of_tree b' k' m) g' (becomes s b' k' m (shape_of s t)) q' ->
    (M * q = M' * q')%R.
  Proof.
    intros b b' m t t' k k' g g' M M' q q' RE RE' RR RR' Ht Ht' S2 ES EO GT (L & HL & ->) (L' & HL' & ->) Q Q'.
    assert (NT : zlen (trees b') = zlen (trees b)).
    { destruct (C05_forest_well_formed s b OK RE) as [-> _]. now destruct (C05_forest_well_formed s b' OK RE') as [-> _]. }
    pose proof (d_range s b OK RE) as DR. cbv zeta in DR. fold d in DR.
    assert (D1 : 1 <= d) by lia.
    destruct (grown_rules d D1 (rules_of t) (rules_of t') (shape_reached b m t RE Ht) (shape_reached b' m t' RE' Ht') GT)
      as (n & LN & NR & PN & AB & AS).
    destruct (pair_positive b b' m m t t' RE RE' Ht Ht' n LN NR PN AB AS) as (P1 & P2 & P3 & P4).
    pose proof (pair_grow b b' m m t t' RE RE' Ht Ht' n LN NR PN AB AS k g L L' S2 RR HL HL') as Q1.
    assert (TR : forall tr M, is_tree_likelihood d (1 / IZR (zlen (trees b))) (sigma2 b)
        (firstn m (trees (step (g := g) b k)) ++ skipn (S m) (trees b)) data tr M ->
      is_tree_likelihood d (1 / IZR (zlen (trees b'))) (sigma2 b')
        (firstn m (trees (step (g := g') b' k')) ++ skipn (S m) (trees b')) data tr M).
    { intros tr M H. rewrite NT, ES. eapply likelihood_ext; [exact EO | exact H]. }
    assert (S2' : (0 < sigma2 b')%R) by (rewrite ES; exact S2).
    pose proof (pair_prune b b' m t t' RE RE' Ht' n LN PN AS k' g' L L' S2' (TR _ _ HL) (TR _ _ HL')) as Q2.
    assert (ND : forall x k, In x (trees b) -> NoDup (draws_of_tree b k m)).
    { intros x k0 Hx. apply tree_sites_nodup. destruct (trees b); [destruct Hx | unfold zlen; cbn [length]; lia]. }
    assert (ND' : forall x k, In x (trees b') -> NoDup (draws_of_tree b' k m)).
    { intros x k0 Hx. apply tree_sites_nodup. destruct (trees b'); [destruct Hx | unfold zlen; cbn [length]; lia]. }
    rewrite (probability_unique _ _ _ _ _ RR (ND t k (nth_error_In _ _ Ht)) Q Q1).
    rewrite (probability_unique _ _ _ _ _ RR' (ND' t' k' (nth_error_In _ _ Ht')) Q' Q2).
    pose proof (like_positive s b S2 k m t Ht (rg_prob _ _ RG) (rg_first _ _ RG) (rules_ok b m t RE Ht) g (rules_of t) L HL) as LP.
    pose proof (like_positive s b S2 k m t Ht (rg_prob _ _ RG) (rg_first _ _ RG) (rules_ok b m t RE Ht) g (rules_of t') L' HL') as LP'.
    fold d p ms bits w.
    set (qg := q_grow d pts mp p w _ n _ _) in *. set (qp := q_prune d pts mp _) in *.
    set (a := prior d p w (rules_of t)) in *. set (a' := prior d p w (rules_of t')) in *.
    clearbody qg qp a a'. clear - P1 P2 P3 P4 LP LP'.
    assert (X : (0 < a * L * qg)%R) by (apply Rmult_lt_0_compat; auto; apply Rmult_lt_0_compat; auto).
    assert (Y : (0 < a' * L' * qp)%R) by (apply Rmult_lt_0_compat; auto; apply Rmult_lt_0_compat; auto).
    rewrite <- !Rmult_assoc. set (x := (a * L * qg)%R) in *. set (y := (a' * L' * qp)%R) in *. clearbody x y.
    destruct (Rle_or_lt x y) as [H | H].
    - rewrite Rmin_left, Rmin_right.
      + field. lra.
      + apply Rmult_le_reg_r with y; auto. unfold Rdiv. rewrite Rmult_assoc, Rinv_l; lra.
      + apply Rmult_le_reg_r with x; auto. unfold Rdiv. rewrite Rmult_assoc, Rinv_l; lra.
    - rewrite Rmin_right, Rmin_left.
      + field. lra.
      + apply Rmult_le_reg_r with y; auto. unfold Rdiv. rewrite Rmult_assoc, Rinv_l; lra.
      + apply Rmult_le_reg_r with x; auto. unfold Rdiv. rewrite Rmult_assoc, Rinv_l; lra.
  Qed.

  (** What one step can do to the tree *)
  Lemma becomes_cases : forall b k m t T (g : rng rops), reached s b -> nth_error (trees b) m = Some t -> real_rng g ->
    becomes s b k m T g -> T = shape_of s t \/ grows_to (shape_of s t) T \/ grows_to T (shape_of s t).
  Proof.
    intros b k m t T g RE Ht RR (t1 & H1 & <-). pose proof (real_rng_laws g RR) as rl.
    destruct (C17_one_change_per_tree (g := g) s b k OK RE) as (_ & cs & LC & H & _).
    assert (exists c, nth_error cs m = Some c) as (c & Hc).
    { destruct (nth_error cs m) as [c |] eqn:E; eauto. exfalso. apply nth_error_None in E.
      assert (m < length (trees b))%nat by (apply nth_error_Some; congruence). lia. }
    specialize (H m t t1 c Ht H1 Hc). unfold shape_of. destruct c; cbn [changed] in H; auto.
  Qed.

  Lemma impossible_probability : forall b k m (E : rng rops -> Prop) g, real_rng g ->
    (forall g', real_rng g' -> differ_only_at (draws_of_tree b k m) g g' -> ~ E g') ->
    has_probability (draws_of_tree b k m) g E 0.
  Proof.
    intros b k m E g RR H. unfold draws_of_tree, tree_sites.
    set (km := KSplit (KSplit k 2 1) 2 1). set (nt := zlen (trees b)).
    exists [UnifIn (KSplit km (1 + nt) 0) (Z.of_nat m) 0 0;
       UnifToIn (KSplit (KSplit (KSplit km (1 + nt) (1 + Z.of_nat m)) 2 0) 3 0) 1 0 1;
       IntIs (KSplit (KSplit (KSplit km (1 + nt) (1 + Z.of_nat m)) 2 0) 3 1) 1 0;
       IntIs (KSplit (KSplit (KSplit km (1 + nt) (1 + Z.of_nat m)) 2 0) 3 2) 1 0;
       IntIs (KSplit (KSplit km (1 + nt) (1 + Z.of_nat m)) 2 1) 1 0;
       UnifIn (KSplit km (1 + nt) 0) (nt + Z.of_nat m) 0 1].
    split; [| split; [reflexivity | split]].
    - repeat apply Forall_cons; try apply Forall_nil; cbn [proper]; try lra; try lia.
    - cbn [map chance fold_right]. unfold Rminus. rewrite Rplus_opp_r, Rmult_0_l. reflexivity.
    - intros g' RR' DF. split; [intros Q; now apply (H g') in Q |].
      intros Q. inversion Q as [| ? ? Q1 _]. cbn [holds] in Q1. lra.
  Qed.

  (** Every outcome other than staying has a probability. *)
  Lemma probability_exists : forall b k m t T (g : rng rops), reached s b -> nth_error (trees b) m = Some t ->
    real_rng g -> (0 < sigma2 b)%R -> T <> shape_of s t ->
    exists q, has_probability (draws_of_tree b k m) g (becomes s b k m T) q.
  Proof.
    intros b k m t T g RE Ht RR S2 NE.
    destruct (Classical_Prop.classic (exists g', real_rng g' /\ differ_only_at (draws_of_tree b k m) g g' /\ becomes s b k m T g'))
      as [(g' & RR' & DF & B) | H].
    2: { exists 0%R. apply impossible_probability; auto. intros g' R' D' B. apply H. eauto. }
    pose proof (becomes_cases b k m t T g' RE Ht RR' B) as [E | GT]; [congruence |].
    destruct B as (t1 & H1 & <-). pose proof (real_rng_laws g' RR') as rl.
    set (b' := step (g := g') b k) in *.
    assert (RE' : reached s b') by (apply reached_step; auto).
    pose proof (d_range s b OK RE) as DR. cbv zeta in DR. fold d in DR. assert (D1 : 1 <= d) by lia.
    destruct (like_exists s b S2 k m t Ht (rg_prob _ _ RG) (rg_first _ _ RG) (rules_ok b m t RE Ht) g (rules_of t)) as [L HL].
    destruct (like_exists s b S2 k m t Ht (rg_prob _ _ RG) (rg_first _ _ RG) (rules_ok b m t RE Ht) g (rules_of t1)) as [L' HL'].
    destruct GT as [GT | GT].
    - destruct (grown_rules d D1 (rules_of t) (rules_of t1) (shape_reached b m t RE Ht) (shape_reached b' m t1 RE' H1) GT)
        as (n & LN & NR & PN & AB & AS).
      eexists. exact (pair_grow b b' m m t t1 RE RE' Ht H1 n LN NR PN AB AS k g L L' S2 RR HL HL').
    - destruct (grown_rules d D1 (rules_of t1) (rules_of t) (shape_reached b' m t1 RE' H1) (shape_reached b m t RE Ht) GT)
        as (n & LN & NR & PN & AB & AS).
      eexists. exact (pair_prune b' b m t1 t RE' RE Ht n LN PN AS k g L' L S2 HL' HL).
  Qed.
End Detailed.
