(** C55. The whole posterior is invariant under the update of one tree. *)
From Coq Require Import ZArith List Bool Lia Reals Lra FunctionalExtensionality.
From Coquelicot Require Import Coquelicot.
From Verif Require Import Base LemBase ModelJaxext ModelGrove ModelStep SpecTree
  SpecRange SpecForest SpecRun SpecPosterior SpecProposal SpecExact SpecMH SpecChance SpecBalance SpecKernel SpecPrior SpecBayes
  SpecInvariant Laws
  ProofTree ProofStep ProofRun ProofForest ProofTransition ProofNormal ProofGauss ProofGamma PropForest PropExact PropMH ProofChance
  ProofProb ProofShape ProofBalance ProofDetailed ProofKernel PropBalance PropKernel PropJoint PropBayes Examples ExampleReal.
Import ListNotations.
Open Scope Z_scope.

(** ** Iterated integrals *)

Lemma is_integral_unique : forall l f mu v v', is_integral l f mu v -> is_integral l f mu v' -> v = v'.
Proof.
  induction l as [| i l IH]; intros f mu v v'; cbn [is_integral]; [intros -> ->; reflexivity |].
  intros (h & H & I) (h' & H' & I').
  assert (E : h = h') by (apply functional_extensionality; intros x; exact (IH _ _ _ _ (H x) (H' x))). subst h'.
  rewrite <- (is_RInt_gen_unique h v I). apply (is_RInt_gen_unique h v' I').
Qed.

Lemma is_integral_normal (mean var : Z -> R) : forall l, NoDup l -> (forall i, In i l -> (0 < var i)%R) ->
  forall f mu c,
  (forall mu', (forall j, ~ In j l -> mu' j = mu j) ->
     f mu' = (c * product (map (fun i => dnorm (mean i) (var i) (mu' i)) l))%R) ->
  is_integral l f mu c.
Proof.
  induction l as [| i l IH]; intros ND HV f mu c E; cbn [is_integral].
  - rewrite (E mu (fun _ _ => eq_refl)). cbn [map]. unfold product. cbn [fold_right]. lra.
  - inversion ND as [| ? ? N1 N2]; subst.
    exists (fun x => c * dnorm (mean i) (var i) x)%R. split.
    + intros x. apply IH; auto; [intros j Hj; apply HV; now right |].
      intros mu' H. rewrite E.
      * cbn [map]. rewrite product_cons. rewrite (H i N1). unfold set_value. rewrite Z.eqb_refl. ring.
      * intros j Hj. assert (j <> i) by (intros ->; apply Hj; now left). rewrite H.
        -- unfold set_value. destruct (Z.eqb_spec j i); [contradiction | reflexivity].
        -- intros Hl. apply Hj. now right.
    + pose proof (is_RInt_gen_scal (V := R_NormedModule) (Fa := Rbar_locally m_infty)
        (Fb := Rbar_locally p_infty) _ c _ (dnorm_integral (mean i) (var i) (HV i (or_introl eq_refl)))) as G.
      match type of G with is_RInt_gen _ _ _ ?x =>
        replace x with c in G by (unfold scal; cbn; unfold mult; cbn; ring) end.
      exact G.
Qed.

Section Props.
  Context {zo : zoob} {foo : foob rops}.

  Lemma leaf_distribution_exists : forall (s : @settings rops) (b : @bart rops) k m t (g : rng rops) tr, nth_error (trees b) m = Some t -> (0 < sigma2 b)%R ->
    exists mean var, forall i, leaf_distribution s b k m g tr i (mean i) (var i).
  Proof.
    intros s b k m t g tr Ht S2. eexists. eexists. intros i. apply posterior_exact; [| exact S2].
    apply IZR_lt. assert (m < length (trees b))%nat by (apply nth_error_Some; congruence). unfold zlen. lia.
  Qed.

  Lemma tree_posterior_exists : forall (s : @settings rops) (b : @bart rops) k m t (g : rng rops) tr, nth_error (trees b) m = Some t -> (0 < sigma2 b)%R ->
    exists M, is_tree_posterior s b k m g tr M.
  Proof.
    intros s b k m t g tr Ht S2. eexists. eexists. split; [| reflexivity]. eexists. split; [| reflexivity].
    intros i _. apply marginal_exact; [| exact S2].
    apply IZR_lt. assert (m < length (trees b))%nat by (apply nth_error_Some; congruence). unfold zlen. lia.
  Qed.

  Lemma leaves_nodup : forall (s : @settings rops) (b : @bart rops) tr, settings_ok s -> reached s b -> zlen (snd tr) = heap_size (depth_of s) -> NoDup (leaves_of s tr).
  Proof.
    intros s b tr OK RE LT. pose proof (d_range s b OK RE) as DR. cbv zeta in DR.
    apply NoDup_leaves; [lia | apply levels_fit; auto; lia | constructor].
  Qed.

  (** C55. The posterior of the rules of tree [m] is the integral of the joint
      posterior over the values of the leaves. *)
  Theorem C55_marginal : forall (s : @settings rops) (b : @bart rops) k m t (g : rng rops) tr M mu, settings_ok s -> reached s b ->
    nth_error (trees b) m = Some t -> (0 < sigma2 b)%R ->
    zlen (snd tr) = heap_size (depth_of s) ->
    is_tree_posterior s b k m g tr M <-> is_integral (leaves_of s tr) (joint_density s b k m g tr) mu M.
  Proof.
    intros s b k m t g tr M mu OK RE Ht S2 LT.
    destruct (leaf_distribution_exists s b k m t g tr Ht S2) as (mean & var & HD).
    assert (I : forall M, is_tree_posterior s b k m g tr M -> is_integral (leaves_of s tr) (joint_density s b k m g tr) mu M).
    { intros M' HM. apply (is_integral_normal mean var).
      - now apply (leaves_nodup s b).
      - intros i _. exact (proj1 (HD i)).
      - intros mu' _. apply (C49_joint s b k m t g tr M' mean var mu'); auto. }
    split; [apply I |]. intros H.
    destruct (tree_posterior_exists s b k m t g tr Ht S2) as [M' HM'].
    now rewrite (is_integral_unique _ _ _ _ _ H (I M' HM')).
  Qed.

  (** the values at the leaves only *)
  Lemma joint_values : forall s b k m (g : rng rops) tr mu mu', (forall i, In i (leaves_of s tr) -> mu i = mu' i) ->
    joint_density s b k m g tr mu = joint_density s b k m g tr mu'.
  Proof.
    intros s b k m g tr mu mu' E. unfold joint_density. f_equal.
    - f_equal. unfold product. f_equal. apply map_ext_in. intros i Hi. now rewrite E.
    - unfold product. f_equal. apply map_ext. intros xy. rewrite E; [reflexivity |]. apply leaf_of_leaves.
  Qed.

  Lemma posterior_at_joint : forall s c m n state k (g : nat -> rng rops) tree_at before after v i mu, regular s c ->
    same_but_tree s m n state k g tree_at -> same_others m n state k g before after -> (i < n)%nat -> sigma2 (state i) = v ->
    posterior_at s before after v (tree_at i) mu =
    (others_density s (Z.max 0 (i_num_trees s)) before after v * joint_density s (state i) (k i) m (g i) (rules_of (tree_at i)) mu)%R.
  Proof.
    intros s c m n state k g tree_at before after v i mu RG SB SO Hi EV. pose proof (rg_ok _ _ RG) as OK.
    pose proof (sb_reached _ _ _ _ _ _ _ SB i Hi) as RE. pose proof (sb_tree _ _ _ _ _ _ _ SB i Hi) as Ht.
    destruct (SO i Hi) as [EB EA]. subst v.
    destruct (trees_factor s c (state i) (k i) m (tree_at i) (g i) RG RE Ht (sb_gen _ _ _ _ _ _ _ SB i Hi) (sb_positive _ _ _ _ _ _ _ SB i Hi)) as [_ F].
    destruct (C05_forest_well_formed s (state i) OK RE) as [NT WF].
    rewrite EB, EA, NT in F. unfold posterior_at. rewrite F. f_equal.
    change (rules_of (with_values (tree_at i) mu)) with (rules_of (tree_at i)). apply joint_values. intros l Hl.
    destruct (WF _ (nth_error_In _ _ Ht)) as (L1 & _ & L2 & _).
    pose proof (d_range s _ OK RE) as DR. cbv zeta in DR.
    assert (B : 0 <= l < zlen (t_leaf (tree_at i))).
    { unfold leaves_of in Hl. apply In_leaves in Hl; [| lia | apply levels_fit; [lia | exact L2] | constructor].
      destruct Hl as [[Rl _] _]. pose proof (reachable_pos _ _ Rl). apply reachable_lt in Rl; [| cbn [rules_of snd]; unfold heap_size in *; lia].
      cbn [rules_of snd] in Rl. rewrite L1. assert (2 ^ depth_of s = 2 * 2 ^ (depth_of s - 1)); [| lia].
      rewrite <- Z.pow_succ_r by lia. f_equal. lia. }
    unfold leaf_value, with_values. cbn [t_leaf]. unfold zlen in B.
    rewrite (nth_indep _ 0%R (mu (Z.of_nat 0))) by (rewrite map_length, seq_length; lia).
    rewrite (map_nth (fun i => mu (Z.of_nat i))), seq_nth by lia. f_equal. lia.
  Qed.

  Lemma posterior_integral : forall s c m n state k (g : nat -> rng rops) tree_at before after v i M mu, regular s c ->
    same_but_tree s m n state k g tree_at -> same_others m n state k g before after -> (i < n)%nat -> sigma2 (state i) = v ->
    is_tree_posterior s (state i) (k i) m (g i) (rules_of (tree_at i)) M ->
    is_integral (leaves_of s (rules_of (tree_at i))) (posterior_at s before after v (tree_at i)) mu
      (others_density s (Z.max 0 (i_num_trees s)) before after v * M)%R.
  Proof.
    intros s c m n state k g tree_at before after v i M mu RG SB SO Hi EV HM. pose proof (rg_ok _ _ RG) as OK.
    pose proof (sb_reached _ _ _ _ _ _ _ SB i Hi) as RE. pose proof (sb_tree _ _ _ _ _ _ _ SB i Hi) as Ht.
    pose proof (sb_positive _ _ _ _ _ _ _ SB i Hi) as S2.
    destruct (leaf_distribution_exists s (state i) (k i) m _ (g i) (rules_of (tree_at i)) Ht S2) as (me & va & HE).
    assert (LT : zlen (snd (rules_of (tree_at i))) = heap_size (depth_of s)).
    { destruct (C05_forest_well_formed s (state i) OK RE) as [_ WF]. apply (WF _ (nth_error_In _ _ Ht)). }
    apply (is_integral_normal me va).
    - now apply (leaves_nodup s (state i)).
    - intros l _. exact (proj1 (HE l)).
    - intros mu' _. rewrite (posterior_at_joint s c m n state k g tree_at before after v i mu' RG SB SO Hi EV).
      rewrite (C49_joint s (state i) (k i) m _ (g i) (rules_of (tree_at i)) M me va mu' OK RE Ht S2 LT HM (fun l _ => HE l)). ring.
  Qed.

  (** C55. In the situation of [C49_stationary], with the other trees and the noise
      variance fixed: let [W] be the posterior probability of each structure of
      tree [m], up to a constant, that is the integral of the whole posterior over
      the values of the leaves.  If the forest is distributed according to the
      posterior, then after the update of tree [m] it still is: the density at
      structure [j] and values [mu], which is the probability to go to [j] times
      the density of the new values ([C49_new_leaves]), is the posterior density. *)
  Theorem C55_invariant : forall s c m n state k (g : nat -> rng rops) tree_at P before after v W mu0, regular s c ->
    same_but_tree s m n state k g tree_at -> closed s m n state k g tree_at ->
    transition_matrix s m n state k g tree_at P ->
    same_others m n state k g before after -> (forall i, (i < n)%nat -> sigma2 (state i) = v) ->
    (forall i, (i < n)%nat ->
       is_integral (leaves_of s (rules_of (tree_at i))) (posterior_at s before after v (tree_at i)) mu0 (W i)) ->
    forall j mean var mu, (j < n)%nat ->
    (forall l, In l (leaves_of s (rules_of (tree_at j))) ->
       leaf_distribution s (state j) (k j) m (g j) (rules_of (tree_at j)) l (mean l) (var l)) ->
    (sum_to n (fun i => W i * P i j)
     * product (map (fun l => dnorm (mean l) (var l) (mu l)) (leaves_of s (rules_of (tree_at j)))))%R =
    posterior_at s before after v (tree_at j) mu.
  Proof.
    intros s c m n state k g tree_at P before after v W mu0 RG SB CL TM SO HV HW j mean var mu Hj HD. pose proof (rg_ok _ _ RG) as OK.
    rewrite (posterior_at_joint s c m n state k g tree_at before after v j mu RG SB SO Hj (HV j Hj)).
    set (K := others_density s (Z.max 0 (i_num_trees s)) before after v).
    assert (KP : (0 < K)%R).
    { destruct (trees_factor s c (state j) (k j) m (tree_at j) (g j) RG (sb_reached _ _ _ _ _ _ _ SB j Hj) (sb_tree _ _ _ _ _ _ _ SB j Hj)
        (sb_gen _ _ _ _ _ _ _ SB j Hj) (sb_positive _ _ _ _ _ _ _ SB j Hj)) as [KP _].
      destruct (SO j Hj) as [EB EA]. destruct (C05_forest_well_formed s (state j) OK (sb_reached _ _ _ _ _ _ _ SB j Hj)) as [NT _].
      rewrite EB, EA, NT, (HV j Hj) in KP. exact KP. }
    set (M i := (W i / K)%R).
    assert (HM : forall i, (i < n)%nat -> is_tree_posterior s (state i) (k i) m (g i) (rules_of (tree_at i)) (M i)).
    { intros i Hi.
      pose proof (sb_reached _ _ _ _ _ _ _ SB i Hi) as RE. pose proof (sb_tree _ _ _ _ _ _ _ SB i Hi) as Ht.
      pose proof (sb_positive _ _ _ _ _ _ _ SB i Hi) as S2.
      destruct (tree_posterior_exists s (state i) (k i) m _ (g i) (rules_of (tree_at i)) Ht S2) as [M' HM].
      pose proof (is_integral_unique _ _ _ _ _ (HW i Hi)
        (posterior_integral s c m n state k g tree_at before after v i M' mu0 RG SB SO Hi (HV i Hi) HM)) as EW. fold K in EW.
      replace (M i) with M'; [exact HM |]. unfold M. rewrite EW. field. lra. }
    rewrite <- (C49_joint_stationary s c m n state k g tree_at P M RG SB CL TM HM j mean var mu Hj HD).
    rewrite <- Rmult_assoc. f_equal.
    assert (E : forall f h, (forall i, (i < n)%nat -> f i = (K * h i)%R) -> sum_to n f = (K * sum_to n h)%R).
    { intros f h Efh. unfold sum_to.
      assert (G : forall l, (forall i, In i l -> (i < n)%nat) -> fold_right Rplus 0%R (map f l) = (K * fold_right Rplus 0%R (map h l))%R).
      { induction l as [| a l IH]; intros Hl; cbn [map fold_right]; [lra |].
        rewrite IH by (intros; apply Hl; now right). rewrite Efh by (apply Hl; now left). ring. }
      apply G. intros i Hi. apply in_seq in Hi. lia. }
    apply E. intros i Hi. unfold M. field. lra.
  Qed.
  (** C55. The whole posterior is invariant under the update of the noise
      variance too: the step sets it to b / G, with G the draw of a gamma variable;
      the posterior integrated over the previous noise variance, times the density
      of the new one, is the posterior at the new one. *)
  Theorem C55_noise_invariant : forall s c b k (g : rng rops), regular s c -> reached s b -> real_rng g ->
    (0 < i_sigma2_alpha s)%R -> (0 < i_sigma2_beta s)%R ->
    let b' := step (g := g) b k in
    exists a' b0, (0 < a')%R /\ (0 < b0)%R /\
      sigma2 b' = (b0 / r_gamma (rng := g) (KSplit k 2 0) a')%R /\
      (exists total W, (0 < total)%R /\ integral_positive (gamma_density a') total /\
         integral_positive (posterior_density s (trees b')) W) /\
      (forall total W v, (0 < v)%R -> integral_positive (gamma_density a') total ->
         integral_positive (posterior_density s (trees b')) W ->
         (W * quotient_density b0 (gamma_density a') total v)%R = posterior_density s (trees b') v).
  Proof.
    intros s c b k g RG RE RR Ha Hb b'.
    destruct (C55_noise_variance s c b k g RG RE RR Ha Hb) as (a' & b0 & K & Pa & Pb & PK & E & EQ & _). fold b' in E, EQ.
    destruct (gamma_integral a' Pa) as (G & PG & IG).
    assert (IW : integral_positive (posterior_density s (trees b')) (K * (Rpower b0 (- a') * G))%R).
    { exact (integral_scale _ _ _ _ K _ at_right_pos infty_pos EQ (change_positive a' b0 G Pb IG)). }
    exists a', b0. split; [exact Pa | split; [exact Pb | split; [exact E | split]]].
    - exists G, (K * (Rpower b0 (- a') * G))%R. auto.
    - intros total W v Hv It IW'.
      assert (ET : total = G) by (transitivity (RInt_gen (gamma_density a') (at_right 0) (Rbar_locally p_infty));
        [symmetry |]; now apply (is_RInt_gen_unique (V := R_CompleteNormedModule))).
      assert (EW : W = (K * (Rpower b0 (- a') * G))%R) by (transitivity (RInt_gen (posterior_density s (trees b')) (at_right 0) (Rbar_locally p_infty));
        [symmetry |]; now apply (is_RInt_gen_unique (V := R_CompleteNormedModule))).
      subst total W. rewrite (EQ v Hv). unfold quotient_density.
      replace (gamma_density a' (b0 / v) / G * (b0 / (v * v)))%R with (b0 / (v * v) * gamma_density a' (b0 / v) / G)%R by (field; lra).
      rewrite (change_density a' b0 v Pb Hv), Rpower_Ropp.
      pose proof (exp_pos (a' * ln b0)) as PP. fold (Rpower b0 a') in PP. field. lra.
  Qed.
End Props.
Print Assumptions C55_marginal.
Print Assumptions C55_invariant.
Print Assumptions C55_noise_invariant.

(** ** A case that meets the hypotheses: the two states of [two_states] *)
Module Example.
  Local Existing Instance zclip.
  Local Existing Instance real_clip.
  Import PropBalance.Example PropKernel.Example.

  Example two_states_invariant : exists state k g tree_at P v W,
    same_but_tree one_settings 0 2 state k g tree_at /\ closed one_settings 0 2 state k g tree_at /\
    transition_matrix one_settings 0 2 state k g tree_at P /\
    same_others 0 2 state k g [] [] /\ (forall i, (i < 2)%nat -> sigma2 (state i) = v) /\
    (forall i, (i < 2)%nat -> is_integral (leaves_of one_settings (rules_of (tree_at i)))
       (posterior_at one_settings [] [] v (tree_at i)) (fun _ => 0%R) (W i)) /\ (0 < P 0%nat 1%nat)%R.
  Proof.
    destruct two_states as (state & k & g & tree_at & P & M & SB & CL & TM & HM & PP).
    assert (SO : same_others 0 2 state k g [] []).
    { intros i Hi. split; [reflexivity |]. pose proof (one_tree _ (sb_reached _ _ _ _ _ _ _ SB i Hi)) as E.
      destruct (trees (state i)) as [| t [|]]; try discriminate. reflexivity. }
    assert (HV : forall i, (i < 2)%nat -> sigma2 (state i) = sigma2 (state 0%nat))
      by (intros i Hi; apply (sb_sigma2 _ _ _ _ _ _ _ SB i 0%nat Hi ltac:(lia))).
    exists state, k, g, tree_at, P, (sigma2 (state 0%nat)),
      (fun i => others_density one_settings (Z.max 0 (i_num_trees one_settings)) [] [] (sigma2 (state 0%nat)) * M i)%R.
    refine (conj SB (conj CL (conj TM (conj SO (conj HV (conj _ PP)))))).
    intros i Hi. eapply posterior_integral; eauto. exact one_regular.
  Qed.

  (** The hypotheses on the noise variance: the state [start] *)
  Example start_noise : forall k, exists a' b0 total W,
    integral_positive (gamma_density a') total /\
    integral_positive (posterior_density one_settings (trees (step (g := real_gen) start k))) W /\
    (W * quotient_density b0 (gamma_density a') total 1)%R =
      posterior_density one_settings (trees (step (g := real_gen) start k)) 1.
  Proof.
    intros k. destruct start_facts as (RE & _).
    destruct (C55_noise_invariant one_settings 1 start k real_gen one_regular RE real_gen_ok)
      as (a' & b0 & _ & _ & _ & (total & W & _ & IT & IW) & H); [cbn; lra | cbn; lra |].
    exists a', b0, total, W. split; [exact IT | split; [exact IW |]]. apply H; [lra | exact IT | exact IW].
  Qed.
End Example.
