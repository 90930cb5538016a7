(** C49. The update of each tree is a random transition that leaves the
    posterior of the tree invariant, in the sense of detailed balance. *)
From Coq Require Import ZArith List Bool Lia Reals Lra.
From Verif Require Import Base LemBase ModelJaxext ModelGrove ModelStep SpecTree
  SpecRange SpecForest SpecRun SpecPosterior SpecProposal SpecExact SpecMH SpecChance SpecBalance SpecKeys Laws
  ProofTree ProofStep ProofRun ProofForest ProofTransition ProofMoves PropForest PropExact PropMH ProofChance ProofProb ProofShape ProofBalance
  ProofDetailed Examples ExampleReal.
Import ListNotations.
Open Scope Z_scope.

Section Props.
  Context {zo : zoob} {foo : foob rops}.

  (** C49. Given the draws not used by the update of tree [m], every structure
      different from the current one is reached with a definite probability,
      positive if and only if some outcome of the draws gives that structure. *)
  Theorem C49_probability : forall s c b k m t T (g : rng rops), regular s c -> reached s b ->
    nth_error (trees b) m = Some t -> real_rng g -> (0 < sigma2 b)%R -> T <> shape_of s t ->
    exists q,
      has_probability (draws_of_tree b k m) g (becomes s b k m T) q /\
      (forall q', has_probability (draws_of_tree b k m) g (becomes s b k m T) q' -> q' = q) /\
      (0 <= q <= 1)%R /\
      ((0 < q)%R <-> exists g', real_rng g' /\ differ_only_at (draws_of_tree b k m) g g' /\ becomes s b k m T g').
  Proof.
    intros s c b k m t T g RG RE Ht RR S2 NE.
    destruct (probability_exists s c RG b k m t T g RE Ht RR S2 NE) as [q H].
    pose proof (draws_nodup b k m t Ht) as ND.
    exists q. split; [exact H |]. split; [| split].
    - intros q' H'. exact (probability_unique _ _ _ _ _ RR ND H' H).
    - exact (probability_01 _ _ _ _ H).
    - split; [exact (probability_possible _ _ _ _ RR ND H) |].
      intros (g' & R' & D' & B'). exact (possible_probability _ _ _ _ _ H R' D' B').
  Qed.

  (** C49. The probability to grow leaf [n] with rule (v, cut), leaving enough
      points in both children: probability of the proposal times probability to
      accept it. *)
  Theorem C49_growth : forall s c b k m t (g : rng rops) n v cut M M', regular s c -> reached s b ->
    nth_error (trees b) m = Some t -> real_rng g -> (0 < sigma2 b)%R ->
    let d := depth_of s in let p := nonterminal s in let w := rule_probability (i_split_bits s) (i_max_split s) in
    let old := rules_of t in
    let new := (put (fst old) n v, put (snd old) n cut) in
    In n (growing_leaves d (points_of s) (i_min_points s) old) ->
    In v (candidates (i_split_bits s) (i_max_split s) (above (fst old) (snd old) n)) ->
    In cut (cuts (i_max_split s) (above (fst old) (snd old) n) v) ->
    c <= points_in d (points_of s) (fst new) (snd new) (2 * n) ->
    c <= points_in d (points_of s) (fst new) (snd new) (2 * n + 1) ->
    is_tree_posterior s b k m g old M -> is_tree_posterior s b k m g new M' ->
    let propose := q_grow d (points_of s) (i_min_points s) p w old n v cut in
    let propose_back := q_prune d (points_of s) (i_min_points s) new in
    has_probability (draws_of_tree b k m) g (becomes s b k m (structure_of d new))
      (propose * Rmin 1 (M' * propose_back / (M * propose))) /\
    (0 < propose /\ 0 < propose_back /\ 0 < M /\ 0 < M')%R.
  Proof.
    intros s c b k m t g n v cut M M' RG RE Ht RR S2 d p w old new Hn Hv Hc E1 E2 (L & HL & ->) (L' & HL' & ->) pr pb.
    pose proof (rg_ok _ _ RG) as OK.
    split.
    - pose proof (grow_probability s b OK RE S2 k m t Ht (rg_prob _ _ RG) c (rg_min _ _ RG) (rg_first _ _ RG) (rules_ok s c RG b m t RE Ht)
        n v cut Hn Hv Hc g L L' RR HL HL') as Q.
      cbv zeta in Q. apply Z.leb_le in E1, E2. unfold new, old, rules_of, d in E1, E2. rewrite E1, E2 in Q. cbn [andb] in Q.
      eapply probability_ext; [| exact Q]. intros g' _. symmetry. apply becomes_after.
    - destruct (grow_priors s b OK RE k m t Ht (rg_prob _ _ RG) (rg_first _ _ RG) (rules_ok s c RG b m t RE Ht) n v cut Hn Hv Hc) as [P1 P2].
      pose proof (like_positive s b S2 k m t Ht (rg_prob _ _ RG) (rg_first _ _ RG) (rules_ok s c RG b m t RE Ht) g _ L HL) as LP.
      pose proof (like_positive s b S2 k m t Ht (rg_prob _ _ RG) (rg_first _ _ RG) (rules_ok s c RG b m t RE Ht) g _ L' HL') as LP'.
      split; [| split; [| split]].
      + exact (q_grow_positive s b OK RE k m t Ht (rg_prob _ _ RG) (rg_first _ _ RG) (rules_ok s c RG b m t RE Ht) n v cut Hn Hv Hc g).
      + exact (q_prune_positive s b OK RE k m t (rg_prob _ _ RG) (rg_first _ _ RG) (rules_ok s c RG b m t RE Ht) new n
          (grow_shape s b OK RE k m t Ht (rg_prob _ _ RG) (rg_first _ _ RG) (rules_ok s c RG b m t RE Ht) n v cut Hn Hc)
          (grow_prunable s b OK RE k m t Ht (rg_prob _ _ RG) (rg_first _ _ RG) (rules_ok s c RG b m t RE Ht) n v cut Hn Hc)).
      + now apply Rmult_lt_0_compat.
      + now apply Rmult_lt_0_compat.
  Qed.

  (** C49. The probability to prune a decision node whose children are leaves *)
  Theorem C49_pruning : forall s c b k m t (g : rng rops) n M M', regular s c -> reached s b ->
    nth_error (trees b) m = Some t -> real_rng g -> (0 < sigma2 b)%R ->
    let d := depth_of s in let p := nonterminal s in let w := rule_probability (i_split_bits s) (i_max_split s) in
    let old := rules_of t in
    let new := (fst old, put (snd old) n 0) in
    decision (snd old) n -> ~ decision (snd old) (2 * n) -> ~ decision (snd old) (2 * n + 1) ->
    is_tree_posterior s b k m g old M -> is_tree_posterior s b k m g new M' ->
    let propose := q_prune d (points_of s) (i_min_points s) old in
    let propose_back := q_grow d (points_of s) (i_min_points s) p w new n (entry (fst old) n) (entry (snd old) n) in
    has_probability (draws_of_tree b k m) g (becomes s b k m (structure_of d new))
      (propose * Rmin 1 (M' * propose_back / (M * propose))) /\
    (0 < propose /\ 0 < propose_back /\ 0 < M /\ 0 < M')%R.
  Proof.
    intros s c b k m t g n M M' RG RE Ht RR S2 d p w old new D0 D1 D2 (L & HL & ->) (L' & HL' & ->) pr pb.
    pose proof (rg_ok _ _ RG) as OK. pose proof (conj D0 (conj D1 D2)) as PN.
    split.
    - pose proof (prune_probability s b OK RE S2 k m t Ht (rg_prob _ _ RG) c (rg_min _ _ RG) (rg_first _ _ RG) (rules_ok s c RG b m t RE Ht)
        n PN g L' L HL' HL) as Q.
      cbv zeta in Q. eapply probability_ext; [| exact Q]. intros g' _. symmetry. apply becomes_after.
    - destruct (prune_priors s b OK RE k m t Ht (rg_prob _ _ RG) (rg_first _ _ RG) (rules_ok s c RG b m t RE Ht) n PN) as [P1 P2].
      pose proof (like_positive s b S2 k m t Ht (rg_prob _ _ RG) (rg_first _ _ RG) (rules_ok s c RG b m t RE Ht) g _ L HL) as LP.
      pose proof (like_positive s b S2 k m t Ht (rg_prob _ _ RG) (rg_first _ _ RG) (rules_ok s c RG b m t RE Ht) g _ L' HL') as LP'.
      split; [| split; [| split]].
      + exact (q_prune_positive s b OK RE k m t (rg_prob _ _ RG) (rg_first _ _ RG) (rules_ok s c RG b m t RE Ht) old n
          (shape_reached s c RG b m t RE Ht) PN).
      + exact (small_q_grow s b OK RE k m t Ht (rg_prob _ _ RG) c (rg_min _ _ RG) (rg_first _ _ RG) (rules_ok s c RG b m t RE Ht) n PN g).
      + now apply Rmult_lt_0_compat.
      + now apply Rmult_lt_0_compat.
  Qed.

  (** C49. Detailed balance: two states with the same noise variance and the
      same value of the other trees, where tree [m] has different structures.
      Posterior of the first structure times the probability to go from the first
      to the second is the same as with the roles exchanged. *)
  Theorem C49_detailed_balance : forall s c b b' m t t' k k' (g g' : rng rops) M M' q q', regular s c ->
    reached s b -> reached s b' -> real_rng g -> real_rng g' ->
    nth_error (trees b) m = Some t -> nth_error (trees b') m = Some t' ->
    (0 < sigma2 b)%R -> sigma2 b' = sigma2 b ->
    (forall x, others_value s b k m g x = others_value s b' k' m g' x) ->
    shape_of s t <> shape_of s t' ->
    is_tree_posterior s b k m g (rules_of t) M -> is_tree_posterior s b k m g (rules_of t') M' ->
    has_probability (draws_of_tree b k m) g (becomes s b k m (shape_of s t')) q ->
    has_probability (draws_of_tree b' k' m) g' (becomes s b' k' m (shape_of s t)) q' ->
    (M * q = M' * q')%R.
  Proof.
    intros s c b b' m t t' k k' g g' M M' q q' RG RE RE' RR RR' Ht Ht' S2 ES EO NE HM HM' Q Q'.
    destruct (Classical_Prop.classic (grows_to (shape_of s t) (shape_of s t'))) as [G | NG].
    { exact (balance_grow s c RG b b' m t t' k k' g g' M M' q q' RE RE' RR RR' Ht Ht' S2 ES EO G HM HM' Q Q'). }
    destruct (Classical_Prop.classic (grows_to (shape_of s t') (shape_of s t))) as [G | NG'].
    { symmetry.
      assert (NT : zlen (trees b') = zlen (trees b)).
      { pose proof (rg_ok _ _ RG) as OK. destruct (C05_forest_well_formed s b OK RE) as [-> _].
        now destruct (C05_forest_well_formed s b' OK RE') as [-> _]. }
      assert (TR : forall tr M, is_tree_posterior s b k m g tr M -> is_tree_posterior s b' k' m g' tr M).
      { intros tr M1 (L & HL & ->). exists L. split; auto. rewrite NT, ES. eapply likelihood_ext; [exact EO | exact HL]. }
      assert (S2' : (0 < sigma2 b')%R) by (rewrite ES; exact S2).
      exact (balance_grow s c RG b' b m t' t k' k g' g M' M q' q RE' RE RR' RR Ht' Ht S2' (eq_sym ES)
        (fun x => eq_sym (EO x)) G (TR _ _ HM') (TR _ _ HM) Q' Q). }
    assert (q = 0)%R.
    { destruct (probability_01 _ _ _ _ Q) as [[H | H] _]; auto. exfalso.
      destruct (probability_possible _ _ _ _ RR (draws_nodup b k m t Ht) Q H) as (g1 & R1 & _ & B).
      apply (becomes_cases s c RG b k m t _ g1 RE Ht R1) in B. destruct B as [B | [B | B]]; auto. }
    assert (q' = 0)%R.
    { destruct (probability_01 _ _ _ _ Q') as [[H' | H'] _]; auto. exfalso.
      destruct (probability_possible _ _ _ _ RR' (draws_nodup b' k' m t' Ht') Q' H') as (g1 & R1 & _ & B).
      apply (becomes_cases s c RG b' k' m t' _ g1 RE' Ht' R1) in B. destruct B as [B | [B | B]]; auto. }
    subst. lra.
  Qed.
End Props.
Print Assumptions C49_probability.
Print Assumptions C49_growth.
Print Assumptions C49_pruning.
Print Assumptions C49_detailed_balance.

(** ** A case that meets the hypotheses: one tree, one predictor with one
    cutpoint, four points *)
Module Example.
  Local Existing Instance zclip.
  Local Existing Instance real_clip.

  Definition one_settings : @settings rops := @mksettings rops
    [[0]; [1]; [0]; [1]] (map IZR [3; -1; 4; -2] : list (@F rops)) [1] 8 1
    ([1 / 2]%R : list (@F rops)) (1%R : @F rops) (1%R : @F rops) (Some 1) None None false.

  Lemma one_regular : regular one_settings 1.
  Proof.
    constructor; cbn [one_settings i_X i_y i_max_split i_min_points]; try reflexivity; try lia.
    - constructor; cbn [one_settings i_X i_y i_max_split i_split_bits i_num_trees i_p_nonterminal
        i_count_batch i_resid_batch]; try discriminate; try reflexivity; try lia.
      + unfold zlen; simpl; lia.
      + unfold zlen; simpl; lia.
      + intros m [<- | []]; simpl; lia.
      + left. intros m [<- | []]; simpl; lia.
      + intros x Hx. right. cbn [flt rops f0 F]. apply Rltb_spec.
        repeat destruct Hx as [<- | Hx]; try lra. destruct Hx.
    - intros x Hx. cbn [In] in Hx. intuition (subst; reflexivity).
    - intros x v Hx Hv. change (zlen [1]) with 1 in Hv. assert (v = 0) as -> by lia.
      cbn [In] in Hx. intuition (subst; vm_compute; congruence).
    - intros j Hj. change (depth_of one_settings) with 2 in Hj. assert (j = 0) as -> by lia.
      change (nonterminal one_settings 0) with (1 / 2)%R. lra.
    - intros k _ _. vm_compute. discriminate.
  Qed.

  Definition start : @bart rops := init_of one_settings.
  Definition stump : @tree rops := nth 0 (trees start) (mktree [] [] [] [] None).

  Lemma start_facts : reached one_settings start /\ nth_error (trees start) 0 = Some stump /\
    rules_of stump = ([0; 0], [0; 0]).
  Proof. split; [constructor |]. split; reflexivity. Qed.

  Lemma start_positive : (0 < sigma2 start)%R.
  Proof.
    pose proof (@C16_positive zclip real_clip one_settings start (rg_ok _ _ one_regular)) as H.
    apply H; [constructor | |]; cbn; lra.
  Qed.

  (** the hypotheses of [C49_growth]: the root can be split at the only
      cutpoint, leaving two points on each side *)
  Definition split_rules : list Z * list Z := ([0; 0], [0; 1]).
  Example grow_root :
    In 1 (growing_leaves (depth_of one_settings) (points_of one_settings) (i_min_points one_settings) (rules_of stump)) /\
    In 0 (candidates (i_split_bits one_settings) (i_max_split one_settings) (above (fst (rules_of stump)) (snd (rules_of stump)) 1)) /\
    In 1 (cuts (i_max_split one_settings) (above (fst (rules_of stump)) (snd (rules_of stump)) 1) 0) /\
    points_in 2 (points_of one_settings) (fst split_rules) (snd split_rules) 2 = 2 /\
    points_in 2 (points_of one_settings) (fst split_rules) (snd split_rules) 3 = 2 /\
    (put (fst (rules_of stump)) 1 0, put (snd (rules_of stump)) 1 1) = split_rules.
  Proof. repeat split; try (vm_compute; auto; reflexivity). Qed.

  Lemma posterior_exists : forall b k m t (g : rng rops) tr, reached one_settings b -> nth_error (trees b) m = Some t ->
    (0 < sigma2 b)%R -> exists M, is_tree_posterior one_settings b k m g tr M.
  Proof.
    intros b k m t g tr RE Ht S2.
    destruct (like_exists one_settings b S2 k m t Ht (rg_prob _ _ one_regular) (rg_first _ _ one_regular) (rules_ok _ _ one_regular b m t RE Ht) g tr) as [L HL].
    eexists. exists L. split; [exact HL | reflexivity].
  Qed.

  (** From any generator, other outcomes of the draws split the root. *)
  Lemma root_splits : forall k (g : rng rops), real_rng g ->
    exists g', real_rng g' /\ becomes one_settings start k 0 (structure_of 2 split_rules) g'.
  Proof.
    intros k g RR. destruct start_facts as (RE & Ht & _). pose proof start_positive as S2.
    destruct grow_root as (H1 & H2 & H3 & H4 & H5 & H6).
    destruct (posterior_exists start k 0 stump g (rules_of stump) RE Ht S2) as [M HM].
    destruct (posterior_exists start k 0 stump g split_rules RE Ht S2) as [M' HM'].
    pose proof (C49_growth one_settings 1 start k 0 stump g 1 0 1 M M' one_regular RE Ht RR S2) as Q. cbv zeta in Q.
    rewrite H6 in Q. change (depth_of one_settings) with 2 in Q.
    destruct (Q H1 H2 H3) as (HP & P1 & P2 & P3 & P4); auto.
    - change (2 * 1) with 2. rewrite H4. lia.
    - change (2 * 1 + 1) with 3. rewrite H5. lia.
    - destruct (probability_possible _ _ _ _ RR (draws_nodup start k 0 stump Ht) HP) as (g' & R' & _ & B).
      + apply Rmult_lt_0_compat; auto. apply Rmin_glb_lt; [lra |]. apply Rdiv_lt_0_compat; now apply Rmult_lt_0_compat.
      + exists g'. split; auto.
  Qed.

  Lemma div_div : forall x y, (0 < x -> 0 < y -> x / (x / y) = y)%R.
  Proof. intros. field. lra. Qed.

  (** same generator, but the draw of the noise variance is [a] *)
  Definition with_gamma (g : rng rops) (a : R) : rng rops := {|
    r_unif := r_unif (rng := g); r_unif_to := r_unif_to (rng := g); r_bits := r_bits (rng := g);
    r_normal := r_normal (rng := g); r_gamma := fun _ _ => a : @F rops |}.

  Lemma with_gamma_ok : forall g a, real_rng g -> (0 < a)%R -> real_rng (with_gamma g a).
  Proof. intros g a [H1 H2 H3 H4] Ha. constructor; auto. Qed.

  Lemma one_tree : forall b, reached one_settings b -> length (trees b) = 1%nat.
  Proof.
    intros b RE. destruct (C05_forest_well_formed one_settings b (rg_ok _ _ one_regular) RE) as [H _].
    change (Z.max 0 (i_num_trees one_settings)) with 1 in H. unfold zlen in H. lia.
  Qed.

  Lemma with_gamma_trees : forall g a k, real_rng g -> (0 < a)%R ->
    trees (step (g := with_gamma g a) start k) = trees (step (g := g) start k).
  Proof.
    intros g a k RR Ha.
    pose proof (same_prefix (with_gamma g a) g start k 1) as H. cbv zeta in H.
    assert (L : forall g, real_rng g -> length (trees (step (g := g) start k)) = 1%nat).
    { intros g1 R1. apply one_tree. apply reached_step; [now apply real_rng_laws | constructor]. }
    assert (F : forall l : list (@tree rops), length l = 1%nat -> firstn 1 l = l).
    { intros l Hl. rewrite <- Hl. apply firstn_all. }
    rewrite <- (F _ (L (with_gamma g a) (with_gamma_ok g a RR Ha))), <- (F _ (L g RR)) at 1.
    apply H; auto. intros j _ _. split; [reflexivity |]. split; [reflexivity |].
    intros dr Hd. unfold tree_draws in Hd. cbn [In] in Hd. intuition (subst dr; try intros hi; reflexivity).
  Qed.

  (** the hypotheses of [C49_detailed_balance]: the initial state, and a state
      reached from it with the root split and the same noise variance *)
  Example split_state : exists b' t',
    reached one_settings b' /\ nth_error (trees b') 0 = Some t' /\
    sigma2 b' = sigma2 start /\ shape_of one_settings t' = structure_of 2 split_rules /\
    shape_of one_settings t' <> shape_of one_settings stump /\
    forall k k' (g g' : rng rops) x,
      others_value one_settings start k 0 g x = others_value one_settings b' k' 0 g' x.
  Proof.
    destruct (root_splits (KRoot 0) real_gen real_gen_ok) as (g & RR & t' & Ht' & ES).
    destruct start_facts as (RE & _). pose proof start_positive as S2.
    set (k := KRoot 0) in *.
    pose proof (with_gamma_ok g 1 RR ltac:(lra)) as R1. pose proof (real_rng_laws _ R1) as L1.
    set (b1 := step (g := with_gamma g 1) start k).
    assert (RE1 : reached one_settings b1) by (apply reached_step; auto).
    assert (S1 : (0 < sigma2 b1)%R).
    { apply (@C16_positive zclip real_clip one_settings b1 (rg_ok _ _ one_regular)).
      - apply rreached_step; [exact R1 | constructor].
      - cbn; lra.
      - cbn; lra. }
    set (a := (sigma2 b1 / sigma2 start)%R).
    assert (Ha : (0 < a)%R) by (apply Rdiv_lt_0_compat; auto).
    pose proof (with_gamma_ok g a RR Ha) as R2. pose proof (real_rng_laws _ R2) as L2.
    set (b2 := step (g := with_gamma g a) start k).
    assert (RE2 : reached one_settings b2) by (apply reached_step; auto).
    exists b2, t'. split; [exact RE2 |].
    assert (Ht2 : nth_error (trees b2) 0 = Some t') by (unfold b2; now rewrite with_gamma_trees).
    split; [exact Ht2 |].
    split; [| split; [exact ES | split]].
    - pose proof (C16_noise_variance (g := with_gamma g 1) one_settings start k (rg_ok _ _ one_regular) RE) as E1.
      pose proof (C16_noise_variance (g := with_gamma g a) one_settings start k (rg_ok _ _ one_regular) RE) as E2.
      cbv zeta in E1, E2. rewrite with_gamma_trees in E1, E2 by (auto; lra). fold b1 in E1. fold b2 in E2.
      change (r_gamma (rng := with_gamma g 1) (KSplit k 2 0) _) with 1%R in E1.
      change (r_gamma (rng := with_gamma g a) (KSplit k 2 0) _) with a in E2.
      match type of E2 with _ = (?y / a)%R => assert (E3 : (y = sigma2 b1)%R) by (rewrite E1; field) end.
      rewrite E3 in E2. rewrite E2. unfold a. exact (div_div _ _ S1 S2).
    - rewrite ES. discriminate.
    - intros k0 k1 g0 g1 x. unfold others_value.
      assert (LL : length (trees b2) = 1%nat) by now apply one_tree.
      clearbody b2.
      destruct (trees b2) as [| u [| u' l]]; try discriminate. reflexivity.
  Qed.
End Example.
