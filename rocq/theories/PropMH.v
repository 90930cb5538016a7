(** The Metropolis-Hastings step in exact real arithmetic: transition and prior
    ratio (C13), likelihood ratio (C14), acceptance (C46).

    In all three, tree number [m] of a reachable state [b] is [t] and [mv] is
    the proposal for it, which is not the empty one. [small_rules] and
    [big_rules] are the rules of the two trees between which it moves.

    They require that the larger tree has a rule at the node of the move, i.e.
    that its cutpoint is not 0. That is so for all moves, unless the range of
    the cutpoints overflows (C13_rule_present, C46_overflow_rejected). *)
From Coq Require Import ZArith List Bool Lia Reals Lra.
From Verif Require Import Base LemBase ModelStep SpecTree SpecForest SpecRun SpecPosterior SpecExact
  SpecProposal SpecMH Laws ProofTree ProofMoves ProofRun ProofForest ProofDraw ProofExact ProofNormal ProofGauss ProofMH
  PropForest PropExact Examples ExampleReal.
Import ListNotations.
Open Scope Z_scope.

Section Props.
  Context {zo : zoob} {foo : foob rops} {g : rng rops} {rl : rlaws g}.

  (** Probability that a node at depth [j] is a decision node, 0 at the last
      level *)
  Definition prob_nonterminal (s : @settings rops) (j : Z) : R := zget 0%R (i_p_nonterminal s) j.

  (** The generator keys of the proposals in a step with key [k] *)
  Definition moves_key (k : key) : key := KSplit (KSplit k 2 1) 2 1.

  Lemma step_num_trees : forall (b : @bart rops) k, zlen (trees (step b k)) = zlen (trees b).
  Proof.
    intros b k. destruct (step_fields b k) as (_ & _ & _ & _ & _ & _ & _ & _ & _ & _ & _ & ET & _).
    destruct (sample_trees_list b (KSplit k 2 1)) as (l & M & _ & _ & T & _). cbv zeta in *.
    rewrite ET, T, zlen_map. rewrite <- (zlen_enumerate _ (trees b)), <- M, zlen_map. reflexivity.
  Qed.

  Lemma prob_facts : forall s b, settings_ok s -> reached s b ->
    (forall j, 0 <= j < depth_of s -> prob_nonterminal s j = zget 0%R (p_nonterminal b) j) /\
    prob_nonterminal s (depth_of s - 1) = 0%R.
  Proof.
    intros s b OK R.
    assert (E : p_nonterminal b = i_p_nonterminal s ++ [0%R]).
    { clear OK. induction R as [| b g0 k rl0 R IH]; [reflexivity |].
      destruct (step_fields b k) as (H & _). now rewrite H. }
    unfold prob_nonterminal, depth_of in *. split.
    - intros j Hj. rewrite E.
      destruct (Z.eq_dec j (zlen (i_p_nonterminal s))) as [-> | N].
      + rewrite zget_over by apply Z.le_refl. unfold zget, zlen. rewrite Nat2Z.id, app_nth2, Nat.sub_diag by lia.
        reflexivity.
      + unfold zget. rewrite app_nth1; auto. unfold zlen in *. lia.
    - apply zget_over. rlia.
  Qed.

  Lemma node_inside : forall s b k m t mv, settings_ok s -> reached s b ->
    nth_error (trees b) m = Some t -> nth_error (sample_moves b k) m = Some mv ->
    m_allowed mv = true ->
    (forall j, 0 <= j < depth_of s - 1 -> (0 < prob_nonterminal s j < 1)%R) ->
    m_node mv < 2 ^ (depth_of s - 1).
  Proof.
    intros s b k m t mv OK R Ht Hm MA P1.
    destruct (C12_proposals s b k m t mv OK R Ht Hm) as (_ & _ & _ & _ & _ & H).
    assert (PP : forall x, In x (i_p_nonterminal s) -> flt f0 x = true).
    { intros x Hx. apply (In_nth _ _ (0%R : @F rops)) in Hx. destruct Hx as (j & Hj & <-).
      cbn [flt rops f0]. apply Rltb_spec. specialize (P1 (Z.of_nat j)).
      unfold prob_nonterminal, zget, depth_of, zlen in P1. rewrite Nat2Z.id in P1.
      destruct (P1 ltac:(rlia)) as [P _]. exact P. }
    specialize (H PP MA). destruct (m_grow mv).
    - apply H.
    - destruct H as (D & _). apply decision_lt in D.
      pose proof (reached_inv s OK b R) as I.
      pose proof (ti_split _ _ (in_trees _ I t (nth_error_In _ _ Ht))) as LS.
      destruct (reached_fields s b R) as (_ & _ & _ & _ & ED & _).
      rewrite LS, ED in D. unfold heap_size in D. lia.
  Qed.

  (** C13. With [p] the probability of each depth and [w] the probability of
      each rule given the rules above, the saved log ratio is the logarithm of
      prior(big) P(big -> small) / (prior(small) P(small -> big)); whether
      growth or pruning is proposed. *)
  Theorem C13_transition_prior_ratio : forall s b k m t mv l w, settings_ok s -> reached s b ->
    nth_error (trees b) m = Some t ->
    nth_error (sample_moves b (moves_key k)) m = Some mv ->
    m_allowed mv = true -> entry (snd (big_rules t mv)) (m_node mv) <> 0 ->
    (0 < sigma2 b)%R ->
    ratios (step b k) = Some l ->
    let d := depth_of s in let p := prob_nonterminal s in
    let small := small_rules t mv in let big := big_rules t mv in
    let v := entry (fst big) (m_node mv) in let c := entry (snd big) (m_node mv) in
    (forall j, 0 <= j < d - 1 -> (0 < p j < 1)%R) ->
    (0 < prior d p w small)%R -> (0 < prior d p w big)%R ->
    let forward := q_grow d (points_of s) (i_min_points s) p w small (m_node mv) v c in
    let backward := q_prune d (points_of s) (i_min_points s) big in
    (0 < forward)%R /\ (0 < backward)%R /\
    option_map fst (nth_error l m) =
      Some (ln (prior d p w big * backward / (prior d p w small * forward))).
  Proof.
    intros s b k m t mv l w OK R Ht Hm MA NZ S2 RT d p small big v c P1 PS PB forward backward.
    assert (NB : m_node mv < 2 ^ (depth_of s - 1)) by (eapply node_inside; eauto).
    destruct (nth_error (trees (step b k)) m) as [t' |] eqn:Ht'.
    2: { exfalso. apply nth_error_None in Ht'. assert (m < length (trees b))%nat by (apply nth_error_Some; congruence).
         pose proof (step_num_trees b k) as E. unfold zlen in E. lia. }
    destruct (mh_parts s b OK R S2 k m t t' mv Ht Ht' Hm NB NZ) as (q & Q1 & Q2 & _).
    destruct (prob_facts s b OK R) as [F1 F2].
    destruct (Q2 p w F1 P1 F2 PS PB) as (A1 & A2 & A3).
    split; [exact A1 |]. split; [exact A2 |]. rewrite (Q1 l RT). cbn [option_map]. f_equal. exact A3.
  Qed.

  (** The priors are positive when all rules have positive probability. *)
  Theorem C13_prior_positive : forall s w tr, settings_ok s ->
    (forall above v c, (0 < w above v c)%R) ->
    (forall j, 0 <= j < depth_of s - 1 -> (0 < prob_nonterminal s j < 1)%R) ->
    (0 < prior (depth_of s) (prob_nonterminal s) w tr)%R.
  Proof.
    intros s w tr OK Hw P1. unfold prior, structure_of, structure.
    apply tree_prior_pos with (d := depth_of s); auto.
    - unfold prob_nonterminal, depth_of. apply zget_over. rlia.
    - pose proof (ok_depth _ OK). cbn [length]. unfold depth_of in *. lia.
  Qed.

  (** C14. The saved log likelihood ratio is the logarithm of
      P(data in left child) P(data in right child) / P(data in parent), the
      value of each leaf being integrated out under its prior N(0, 1/ntree). *)
  Theorem C14_likelihood_ratio : forall s b k m t mv l, settings_ok s -> reached s b ->
    nth_error (trees b) m = Some t ->
    nth_error (sample_moves b (moves_key k)) m = Some mv ->
    m_node mv < 2 ^ (depth_of s - 1) -> entry (snd (big_rules t mv)) (m_node mv) <> 0 ->
    (0 < sigma2 b)%R ->
    ratios (step b k) = Some l ->
    let d := depth_of s in let n := m_node mv in
    let others := firstn m (trees (step b k)) ++ skipn (S m) (trees b) in
    let data := combine (points_of s) (i_y s) in
    let resid_in tr i := leaf_residuals d others (fst tr) (snd tr) i data in
    let prior_var := (1 / IZR (zlen (trees b)))%R in
    exists left right total,
      (0 < left)%R /\ (0 < right)%R /\ (0 < total)%R /\
      is_marginal_likelihood prior_var (sigma2 b) (resid_in (big_rules t mv) (2 * n)) left /\
      is_marginal_likelihood prior_var (sigma2 b) (resid_in (big_rules t mv) (2 * n + 1)) right /\
      is_marginal_likelihood prior_var (sigma2 b) (resid_in (small_rules t mv) n) total /\
      option_map snd (nth_error l m) = Some (ln (left * right / total)).
  Proof.
    intros s b k m t mv l OK R Ht Hm NB NZ S2 RT d n others data resid_in prior_var.
    destruct (nth_error (trees (step b k)) m) as [t' |] eqn:Ht'.
    2: { exfalso. apply nth_error_None in Ht'. assert (m < length (trees b))%nat by (apply nth_error_Some; congruence).
         pose proof (step_num_trees b k) as E. unfold zlen in E. lia. }
    destruct (mh_parts s b OK R S2 k m t t' mv Ht Ht' Hm NB NZ) as (q & Q1 & _ & Q3 & _).
    assert (NT : (0 < IZR (zlen (trees b)))%R).
    { apply IZR_lt. assert (m < length (trees b))%nat by (apply nth_error_Some; congruence).
      unfold zlen. lia. }
    do 3 eexists. repeat match goal with |- _ /\ _ => split end;
      try (apply post_const_pos with (ntree := IZR (zlen (trees b))) (s2 := sigma2 b); assumption);
      try (apply marginal_exact; assumption).
    rewrite (Q1 l RT). cbn [option_map]. f_equal. exact Q3.
  Qed.

  (** C46. The proposal is accepted with the Metropolis-Hastings probability
      for the posterior of the tree given the other trees and the noise
      variance: [1 - u] is a uniform draw in (0, 1] and the proposal is accepted
      if it does not exceed posterior(new) P(new -> old) / (posterior(old)
      P(old -> new)) and both children have enough points; the tree is then
      the proposed one, otherwise it stays the same. *)
  Theorem C46_acceptance : forall s b k m t t' mv w, settings_ok s -> reached s b ->
    nth_error (trees b) m = Some t -> nth_error (trees (step b k)) m = Some t' ->
    nth_error (sample_moves b (moves_key k)) m = Some mv ->
    m_allowed mv = true -> entry (snd (big_rules t mv)) (m_node mv) <> 0 ->
    (0 < sigma2 b)%R ->
    let d := depth_of s in let p := prob_nonterminal s in let n := m_node mv in
    let small := small_rules t mv in let big := big_rules t mv in
    let others := firstn m (trees (step b k)) ++ skipn (S m) (trees b) in
    let data := combine (points_of s) (i_y s) in
    let ntree := zlen (trees b) in
    (forall j, 0 <= j < d - 1 -> (0 < p j < 1)%R) ->
    (0 < prior d p w small)%R -> (0 < prior d p w big)%R ->
    let u := r_unif (rng := g) (KSplit (moves_key k) (1 + ntree) 0) (ntree + Z.of_nat m) in
    (0 <= u < 1)%R /\
    exists like_small like_big,
      is_tree_likelihood d (1 / IZR ntree) (sigma2 b) others data small like_small /\
      is_tree_likelihood d (1 / IZR ntree) (sigma2 b) others data big like_big /\
      let ratio :=
        (prior d p w big * like_big * q_prune d (points_of s) (i_min_points s) big /
         (prior d p w small * like_small *
          q_grow d (points_of s) (i_min_points s) p w small n (entry (fst big) n) (entry (snd big) n)))%R in
      let accepted :=
        (1 - u <= if m_grow mv then ratio else / ratio)%R /\
        forall c, i_min_points s = Some c ->
          c <= points_in d (points_of s) (fst big) (snd big) (2 * n) /\
          c <= points_in d (points_of s) (fst big) (snd big) (2 * n + 1) in
      (0 < ratio)%R /\
      (accepted -> structure d (t_var t') (t_split t') = structure_of d (proposed_rules t mv)) /\
      (~ accepted -> structure d (t_var t') (t_split t') = structure d (t_var t) (t_split t)).
  Proof.
    intros s b k m t t' mv w OK RE Ht Ht' Hm MA NZ S2 d p n small big others data ntree P1 PS PB u.
    assert (NB : m_node mv < 2 ^ (depth_of s - 1)) by (eapply node_inside; eauto).
    assert (U : (0 <= u < 1)%R).
    { pose proof (rl_unif_ge (g := g) (KSplit (moves_key k) (1 + ntree) 0) (ntree + Z.of_nat m)) as U0.
      pose proof (rl_unif_lt (g := g) (KSplit (moves_key k) (1 + ntree) 0) (ntree + Z.of_nat m)) as U1.
      fold u in U0, U1. cbn [flt rops f0 f1] in U0, U1. apply Rltb_spec in U1. split; auto.
      apply Rnot_lt_le. intros H. apply Rltb_spec in H. congruence. }
    split; [exact U |].
    destruct (mh_parts s b OK RE S2 k m t t' mv Ht Ht' Hm NB NZ) as (q & _ & Q2 & Q3 & acc & Q4 & Q5).
    destruct (tree_like s b OK RE S2 k m t t' mv Ht Ht' Hm NB NZ) as (T1 & T2 & T3 & T4 & T5).
    destruct (prob_facts s b OK RE) as [F1 F2].
    destruct (Q2 p w F1 P1 F2 PS PB) as (A1 & A2 & A3).
    cbv zeta in T5. rewrite T5 in Q3. clear T5 Q2.
    eexists. eexists. split; [exact T2 |]. split; [exact T1 |]. cbv zeta.
    fold small big others data in T3, T4, Q3 |- *.
    match type of T4 with (0 < ?x)%R => set (ms := x) in * end.
    match type of T3 with (0 < ?x)%R => set (mb := x) in * end.
    fold small big d p n in A1, A2, A3.
    set (qg := q_grow d _ _ p w small n _ _) in *. set (qp := q_prune d _ _ big) in *.
    clearbody ms mb qg qp.
    set (ratio := (prior d p w big * mb * qp / (prior d p w small * ms * qg))%R).
    assert (RP : (0 < ratio)%R).
    { apply Rdiv_lt_0_compat; repeat apply Rmult_lt_0_compat; auto. }
    assert (SUM : (fst q + snd q = ln ratio)%R).
    { rewrite A3, Q3. rewrite <- ln_mult.
      - f_equal. unfold ratio. field. repeat split; apply Rgt_not_eq; auto.
      - apply Rdiv_lt_0_compat; repeat apply Rmult_lt_0_compat; auto.
      - apply Rdiv_lt_0_compat; auto. }
    split; [exact RP |].
    assert (LE : forall x, (0 < x)%R -> (Rleb (ln (1 + - u)) (ln x) = true <-> (1 - u <= x)%R)).
    { intros x Hx. rewrite Rleb_spec. replace (1 + - u)%R with (1 - u)%R by ring. split.
      - intros H. apply Rnot_lt_le. intros H'. apply ln_increasing in H'; lra.
      - intros [H | ->]; [left; apply ln_increasing; lra | lra]. }
    assert (ACC : acc = true <->
      (1 - u <= if m_grow mv then ratio else / ratio)%R /\
        forall c, i_min_points s = Some c ->
          c <= points_in d (points_of s) (fst big) (snd big) (2 * n) /\
          c <= points_in d (points_of s) (fst big) (snd big) (2 * n + 1)).
    { rewrite Q4, andb_true_iff. rewrite SUM. 
      assert (E1 : Rleb (ln (1 + - u)) (if m_grow mv then ln ratio else - ln ratio) = true <->
                   (1 - u <= if m_grow mv then ratio else / ratio)%R).
      { destruct (m_grow mv); [now apply LE |]. rewrite <- ln_Rinv by auto. apply LE.
        now apply Rinv_0_lt_compat. }
      rewrite <- E1. fold u.
      destruct (i_min_points s) as [c |].
      - rewrite andb_true_iff, !Z.leb_le. split.
        + intros [H1 H2]. split; auto. intros c' [= <-]. exact H2.
        + intros [H1 H2]. split; auto.
      - split; [intros [H1 _]; split; auto; discriminate | intros [H1 _]; auto]. }
    split; intros H.
    - apply ACC in H. rewrite H in Q5. exact Q5.
    - destruct acc; [exfalso; apply H; now apply ACC |]. exact Q5.
  Qed.

  (** The hypothesis on the cutpoint is met by all proposals when no predictor
      has as many cutpoints as its integer type can hold. *)
  Theorem C13_rule_present : forall s b k m t mv, settings_ok s -> reached s b ->
    nth_error (trees b) m = Some t ->
    nth_error (sample_moves b (moves_key k)) m = Some mv ->
    m_node mv < 2 ^ (depth_of s - 1) ->
    (forall c, In c (i_max_split s) -> c < 2 ^ i_split_bits s - 1) ->
    entry (snd (big_rules t mv)) (m_node mv) <> 0.
  Proof.
    intros s b k m t mv OK R Ht Hm NB W.
    apply (rule_present s b OK R k m t mv Ht Hm).
    - destruct (reached_fields s b R) as (_ & _ & EM & _).
      assert (EB : split_bits b = i_split_bits s).
      { clear - R. induction R as [| b g0 k rl0 R IH]; [reflexivity |].
        destruct (step_same b k) as (E1 & E2 & E3 & E4 & E5 & E6 & E7 & E8). congruence. }
      rewrite EM, EB. intros v. unfold entry.
      destruct (nth_in_or_default (Z.to_nat v) (i_max_split s) 0) as [H | ->]; [now apply W |].
      assert (2 ^ 8 <= 2 ^ i_split_bits s)
        by (apply Z.pow_le_mono_r; pose proof (ok_bits _ OK); lia). change (2 ^ 8) with 256 in *. lia.
    - destruct (reached_fields s b R) as (_ & _ & _ & _ & ED & _). rewrite ED. exact NB.
  Qed.

  (** And when the cutpoint is 0 the tree stays the same. *)
  Theorem C46_overflow_rejected : forall s b k m t t' mv, settings_ok s -> reached s b ->
    nth_error (trees b) m = Some t -> nth_error (trees (step b k)) m = Some t' ->
    nth_error (sample_moves b (moves_key k)) m = Some mv ->
    entry (snd (big_rules t mv)) (m_node mv) = 0 ->
    let d := depth_of s in
    structure d (t_var t') (t_split t') = structure d (t_var t) (t_split t).
  Proof.
    intros s b k m t t' mv OK R Ht Ht' Hm Z0 d. now apply (overflow_rejected s b OK R k m t t' mv).
  Qed.
End Props.
Print Assumptions C13_transition_prior_ratio.
Print Assumptions C13_prior_positive.
Print Assumptions C14_likelihood_ratio.
Print Assumptions C46_acceptance.
Print Assumptions C13_rule_present.
Print Assumptions C46_overflow_rejected.

(** ** A concrete case: the first step of the run of [ExampleReal]. The tree is a
    single leaf and growth is proposed. *)
Section Example.
  Local Existing Instance zclip.
  Local Existing Instance real_clip.
  Local Existing Instance real_gen.
  Local Instance real_gen_laws : rlaws real_gen := real_rng_laws real_gen real_gen_ok.

  Lemma real_reached' : forall n, reached real_settings (real_run n).
  Proof. intros n. apply reached_real_reached, real_reached. Qed.

  Lemma real_p : forall j, 0 <= j < depth_of real_settings - 1 ->
    (0 < prob_nonterminal real_settings j < 1)%R.
  Proof.
    intros j Hj. change (depth_of real_settings) with 4 in Hj.
    assert (H : j = 0 \/ j = 1 \/ j = 2) by lia.
    unfold prob_nonterminal, zget.
    destruct H as [-> | [-> | ->]]; [change (Z.to_nat 0) with 0%nat | change (Z.to_nat 1) with 1%nat |
      change (Z.to_nat 2) with 2%nat]; cbn [real_settings i_p_nonterminal nth]; lra.
  Qed.

  Example real_proposal : exists t mv l,
    nth_error (trees (real_run 0)) 0 = Some t /\
    nth_error (sample_moves (real_run 0) (moves_key (KRoot 0))) 0 = Some mv /\
    m_allowed mv = true /\ m_grow mv = true /\ m_node mv = 1 /\
    ratios (step (real_run 0) (KRoot 0)) = Some l.
  Proof.
    pose proof (real_reached' 0) as R.
    assert (T0 : exists t, nth_error (trees (real_run 0)) 0 = Some t /\
      t_split t = [0; 0; 0; 0; 0; 0; 0; 0] /\ t_var t = [0; 0; 0; 0; 0; 0; 0; 0]).
    { eexists. split; [reflexivity | split; reflexivity]. }
    assert (R0 : exists r, ratios (real_run 0) = Some r) by (eexists; reflexivity).
    revert T0 R0 R. generalize (real_run 0). intros b (t & Ht & Es & Ev) (r & Er) R.
    destruct (nth_error (sample_moves b (moves_key (KRoot 0))) 0) as [mv |] eqn:Hm.
    2: { rewrite sample_moves_map, nth_error_map, (nth_error_enumerate _ _ _ _ Ht) in Hm. discriminate. }
    destruct (C12_proposals real_settings b _ 0 t mv real_settings_ok R Ht Hm) as (_ & _ & H & _ & _ & H').
    assert (ND : ~ exists i, decision (t_split t) i).
    { intros (i & D1 & D2). apply D2. clear D2. rewrite Es.
      unfold entry. destruct (Z.to_nat i) as [| [| [| [| [| [| [| [| [|]]]]]]]]]; reflexivity. }
    destruct H as [MA MG]; auto.
    { exists 1. split; [| split; [reflexivity |]].
      - split; [constructor |]. intros D. apply ND. eauto.
      - intros c Hc. injection Hc as <-. rewrite Es, Ev. change (2 * 1 <= 6). lia. }
    assert (PP : forall x, In x (i_p_nonterminal real_settings) -> flt f0 x = true).
    { intros x Hx. cbn [flt rops f0 F]. apply Rltb_spec.
      repeat destruct Hx as [<- | Hx]; try lra. destruct Hx. }
    specialize (H' PP MA). rewrite MG in H'. destruct H' as ([RN _] & _).
    assert (EN : m_node mv = 1).
    { inversion RN as [E | i Ri Di E | i Ri Di E]; auto; exfalso; eauto. }
    destruct (sample_trees_list b (KSplit (KRoot 0) 2 1)) as (l & _ & _ & _ & _ & _ & _ & _ & _ & RT).
    cbv zeta in RT.
    rewrite Er in RT. exists t, mv, (map (fun ita => a_ratios (snd ita)) l).
    repeat (split; [first [assumption | reflexivity] |]). exact RT.
  Qed.

  Example real_priors : forall tr,
    (0 < prior (depth_of real_settings) (prob_nonterminal real_settings) (fun _ _ _ => 1%R) tr)%R.
  Proof.
    intros tr. apply C13_prior_positive; [exact real_settings_ok | intros; lra | exact real_p].
  Qed.
End Example.
