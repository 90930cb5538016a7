(** C55. The updates of a step all target the same posterior distribution. *)
From Coq Require Import ZArith List Bool Lia Reals Lra.
From Coquelicot Require Import Coquelicot.
From Verif Require Import Base LemBase ModelJaxext ModelGrove ModelStep SpecTree
  SpecRange SpecForest SpecRun SpecPosterior SpecProposal SpecExact SpecMH SpecChance SpecBalance SpecKernel SpecPrior SpecBayes Laws
  ProofTree ProofStep ProofRun ProofForest ProofTransition ProofNormal ProofGauss ProofGamma PropForest PropExact PropMH ProofChance
  ProofProb ProofShape ProofBalance ProofDetailed ProofKernel PropBalance PropKernel PropJoint Examples ExampleReal.
Import ListNotations.
Open Scope Z_scope.

Lemma product_app : forall l l', product (l ++ l') = (product l * product l')%R.
Proof. intros l l'. unfold product. induction l as [| a l IH]; cbn [app fold_right]; [lra | rewrite IH; lra]. Qed.

Lemma product_cons : forall a l, product (a :: l) = (a * product l)%R.
Proof. reflexivity. Qed.

Lemma product_pos : forall l, (forall x, In x l -> (0 < x)%R) -> (0 < product l)%R.
Proof.
  induction l as [| a l IH]; intros H; [unfold product; cbn; lra |]. rewrite product_cons.
  apply Rmult_lt_0_compat; [apply H; now left |]. apply IH. intros x Hx. apply H. now right.
Qed.

Lemma dnorm_pos : forall m v x, (0 < v)%R -> (0 < dnorm m v x)%R.
Proof.
  intros m v x Hv. unfold dnorm. apply Rmult_lt_0_compat; [| apply exp_pos].
  apply Rinv_0_lt_compat, sqrt_2pi_pos, Hv.
Qed.

Lemma predict_leaf : forall (s : @settings rops) (t : @tree rops) x, 1 <= depth_of s ->
  predict (depth_of s) t x = leaf_value t (falls_in s (rules_of t) x).
Proof.
  intros s t x Hd. unfold predict, tree_of, falls_in, leaf_value. cbn [rules_of fst snd].
  replace (Z.to_nat (depth_of s - 1)) with (Z.to_nat (depth_of s) - 1)%nat by lia.
  generalize 1. induction (Z.to_nat (depth_of s) - 1)%nat as [| levels IH]; intros i; cbn [decode leaf_of]; [reflexivity |].
  destruct (entry (t_split t) i =? 0); [reflexivity |]. cbn [dt_eval]. destruct (_ <? _); apply IH.
Qed.

Lemma predict_sum_split : forall d before t after x,
  predict_sum d (before ++ t :: after) x = (predict_sum d (before ++ after) x + predict d t x)%R.
Proof.
  intros d before t after x. unfold predict_sum, rsum. rewrite !map_app. cbn [map]. 
  induction before as [| a l IH]; cbn [app map fold_right]; [lra | rewrite IH; lra].
Qed.

(** one more observation *)
Lemma invgamma_update : forall a b m v y, (0 < v)%R ->
  (dnorm m v y * invgamma_density a b v = / sqrt (2 * PI) * invgamma_density (a + / 2) (b + (y - m) ^ 2 / 2) v)%R.
Proof.
  intros a b m v y Hv. unfold dnorm, invgamma_density.
  assert (P2 : (0 < 2 * PI)%R) by (pose proof PI_RGT_0; lra).
  rewrite sqrt_mult by lra.
  assert (S : (Rpower v (- (a + / 2) - 1) = / sqrt v * Rpower v (- a - 1))%R).
  { rewrite <- (Rpower_sqrt v Hv), <- Rpower_Ropp, <- Rpower_plus. f_equal. lra. }
  rewrite S.
  assert (E : (exp (- ((b + (y - m) ^ 2 / 2) / v)) = exp (- (y - m) ^ 2 / (2 * v)) * exp (- (b / v)))%R).
  { rewrite <- exp_plus. f_equal. field. lra. }
  rewrite E. pose proof (sqrt_lt_R0 v Hv). pose proof (sqrt_lt_R0 _ P2). field. split; lra.
Qed.

Lemma invgamma_updates : forall (f : (Z -> Z) -> R) data a b v, (0 < v)%R ->
  (product (map (fun xy => dnorm (f (fst xy)) v (snd xy)) data) * invgamma_density a b v =
   (/ sqrt (2 * PI)) ^ length data *
   invgamma_density (a + INR (length data) / 2) (b + rsum (map (fun xy => (snd xy - f (fst xy)) ^ 2) data) / 2) v)%R.
Proof.
  intros f data a b v Hv. revert a b. induction data as [| [x y] data IH]; intros a b.
  - cbn [map length pow rsum fold_right]. unfold product, rsum. cbn [fold_right INR].
    replace (a + 0 / 2)%R with a by lra. replace (b + 0 / 2)%R with b by lra. lra.
  - cbn [map fst snd length]. rewrite product_cons.
    rewrite Rmult_assoc, (Rmult_comm (product _)), <- Rmult_assoc, invgamma_update by auto.
    rewrite Rmult_assoc, (Rmult_comm (invgamma_density _ _ _)), IH.
    rewrite <- tech_pow_Rmult, <- Rmult_assoc. f_equal. unfold rsum. cbn [fold_right].
    rewrite S_INR. f_equal; lra.
Qed.

Lemma squares_order : forall (f : (Z -> Z) -> R) pts ys,
  rsum (map (fun xy => (snd xy - f (fst xy)) ^ 2)%R (combine pts ys)) = rsum (map2 (fun y x => (y - f x) ^ 2)%R ys pts).
Proof.
  intros f. induction pts as [| x pts IH]; intros [| y ys]; try reflexivity.
  cbn [combine map map2]. unfold rsum in *. cbn [fold_right fst snd]. now rewrite IH.
Qed.

(** equal integrals of functions equal on the positive numbers *)
Lemma integral_scale (Fa Fb : (R -> Prop) -> Prop) {FFa : Filter Fa} {FFb : Filter Fb} (f h : R -> R) K l :
  Fa (fun t => (0 < t)%R) -> Fb (fun t => (0 < t)%R) -> (forall v, (0 < v)%R -> h v = (K * f v)%R) ->
  is_RInt_gen f Fa Fb l -> is_RInt_gen h Fa Fb (K * l)%R.
Proof.
  intros Pa Pb E H.
  apply (is_RInt_gen_ext (fun v => K * f v)%R).
  - refine (Filter_prod _ _ _ (fun t => 0 < t)%R (fun t => 0 < t)%R Pa Pb _).
    intros x y Hx Hy v Hv. cbn [fst snd] in Hv. symmetry. apply E.
    pose proof (Rmin_glb_lt x y 0 Hx Hy). lra.
  - exact (is_RInt_gen_scal (V := R_NormedModule) f K l H).
Qed.

Section Props.
  Context {zo : zoob} {foo : foob rops}.

  Lemma tree_density_pos : forall s c b m t N, regular s c -> reached s b -> nth_error (trees b) m = Some t ->
    0 < N -> (0 < tree_density s N t)%R.
  Proof.
    intros s c b m t N RG RE Ht HN. unfold tree_density. pose proof (rg_ok _ _ RG) as OK.
    pose proof (d_range s b OK RE) as DR. cbv zeta in DR.
    apply Rmult_lt_0_compat.
    - apply prior_positive; [lia | | exact (rg_prob _ _ RG) | apply (prob_facts s b OK RE)].
      apply valid_allowed. exact (rules_ok s c RG b m t RE Ht).
    - apply product_pos. intros x Hx. apply in_map_iff in Hx. destruct Hx as (i & <- & _).
      apply dnorm_pos. apply Rdiv_lt_0_compat; [lra |]. now apply IZR_lt.
  Qed.

  (** the factor of the posterior that does not depend on the tree *)
  Definition others_density (s : @settings rops) (N : Z) (before after : list (@tree rops)) (v : R) : R :=
    (product (map (tree_density s N) before) * product (map (tree_density s N) after)
     * invgamma_density (i_sigma2_alpha s) (i_sigma2_beta s) v)%R.
  Lemma trees_factor : forall s c b k m t (g : rng rops), regular s c -> reached s b ->
    nth_error (trees b) m = Some t -> real_rng g -> (0 < sigma2 b)%R ->
    let K := others_density s (zlen (trees b)) (firstn m (trees (step (g := g) b k))) (skipn (S m) (trees b)) (sigma2 b) in
    (0 < K)%R /\ forall t',
      posterior_density s (firstn m (trees (step (g := g) b k)) ++ t' :: skipn (S m) (trees b)) (sigma2 b) =
      (K * joint_density s b k m g (rules_of t') (leaf_value t'))%R.
  Proof.
    intros s c b k m t g RG RE Ht RR S2 K. pose proof (rg_ok _ _ RG) as OK. pose proof (real_rng_laws _ RR) as rl.
    pose proof (d_range s b OK RE) as DR. cbv zeta in DR.
    assert (RE' : reached s (step (g := g) b k)) by (apply reached_step; auto).
    assert (Hm : (m < length (trees b))%nat) by (apply nth_error_Some; congruence).
    assert (LN : length (trees (step (g := g) b k)) = length (trees b)).
    { pose proof (step_num_trees (g := g) b k) as E. unfold zlen in E. lia. }
    set (before := firstn m (trees (step (g := g) b k))). set (after := skipn (S m) (trees b)).
    set (N := zlen (trees b)). assert (HN : 0 < N) by (unfold N, zlen; lia).
    assert (L : forall t', zlen (before ++ t' :: after) = N).
    { intros t'. unfold before, after, N, zlen. rewrite app_length. cbn [length]. rewrite firstn_length, skipn_length. lia. }
    assert (POS : forall b1 l, reached s b1 -> incl l (trees b1) -> (0 < product (map (tree_density s N) l))%R).
    { intros b1 l R1 I. apply product_pos. intros x Hx. apply in_map_iff in Hx. destruct Hx as (u & <- & Hu).
      apply I in Hu. apply In_nth_error in Hu. destruct Hu as [j Hj]. exact (tree_density_pos s c b1 j u N RG R1 Hj HN). }
    unfold K, others_density. fold before after N. clear K. split.
    - apply Rmult_lt_0_compat; [apply Rmult_lt_0_compat |].
      + apply (POS _ _ RE'). intros x Hx. rewrite <- (firstn_skipn m (trees (step (g := g) b k))). apply in_or_app. now left.
      + apply (POS _ _ RE). intros x Hx. rewrite <- (firstn_skipn (S m) (trees b)). apply in_or_app. now right.
      + apply invgamma_density_pos.
    - intros t'. unfold posterior_density, joint_density. rewrite L, map_app, product_app. cbn [map]. rewrite product_cons.
      fold N. unfold tree_density at 2.
      match goal with |- context [product (map (fun xy => dnorm (predict_sum _ _ _) _ _) ?data)] =>
        replace (product (map (fun xy => dnorm (predict_sum (depth_of s) (before ++ t' :: after) (fst xy)) (sigma2 b) (snd xy)) data))
        with (product (map (fun xy => dnorm (others_value s b k m g (fst xy) + leaf_value t' (falls_in s (rules_of t') (fst xy)))
           (sigma2 b) (snd xy)) data)) end.
      2: { f_equal. apply map_ext. intros xy. rewrite predict_sum_split, (predict_leaf s t') by lia. reflexivity. }
      ring.
  Qed.

  (** C55. As a function of tree [m], when the trees before it are already
      updated and those after it not yet, the posterior is proportional to the
      density that the update of tree [m] leaves invariant. *)
  Theorem C55_trees : forall s c b k m t (g : rng rops), regular s c -> reached s b ->
    nth_error (trees b) m = Some t -> real_rng g -> (0 < sigma2 b)%R ->
    exists K, (0 < K)%R /\ forall t',
      posterior_density s (firstn m (trees (step (g := g) b k)) ++ t' :: skipn (S m) (trees b)) (sigma2 b) =
      (K * joint_density s b k m g (rules_of t') (leaf_value t'))%R.
  Proof.
    intros s c b k m t g RG RE Ht RR S2. eexists. exact (trees_factor s c b k m t g RG RE Ht RR S2).
  Qed.

  (** C55. As a function of the noise variance, with the trees already updated,
      the posterior is an inverse gamma density. The step sets the noise variance
      to b / G with G the draw of a gamma variable with parameter a; if G is above
      b / x with probability q, then the noise variance is below x with the same
      posterior probability. *)
  Theorem C55_noise_variance : forall s c b k (g : rng rops), regular s c -> reached s b -> real_rng g ->
    (0 < i_sigma2_alpha s)%R -> (0 < i_sigma2_beta s)%R ->
    let b' := step (g := g) b k in
    exists a' b0 K, (0 < a')%R /\ (0 < b0)%R /\ (0 < K)%R /\
      sigma2 b' = (b0 / r_gamma (rng := g) (KSplit k 2 0) a')%R /\
      (forall v, (0 < v)%R -> posterior_density s (trees b') v = (K * invgamma_density a' b0 v)%R) /\
      (forall q x, (0 < x)%R -> is_upper_quantile (gamma_density a') q (b0 / x) ->
         is_quantile (posterior_density s (trees b')) q x).
  Proof.
    intros s c b k g RG RE RR Ha Hb b'. pose proof (rg_ok _ _ RG) as OK. pose proof (real_rng_laws _ RR) as rl.
    assert (RE' : reached s b') by (apply reached_step; auto).
    set (sq := rsum (map2 (fun yv x => (yv - predict_sum (depth_of s) (trees b') x) ^ 2)%R (i_y s) (points_of s))).
    assert (SQ : (0 <= sq)%R).
    { unfold sq. rewrite <- (squares_order (predict_sum (depth_of s) (trees b'))). unfold rsum.
      induction (combine _ _) as [| [x y] l IH]; cbn [map fold_right]; [lra |].
      pose proof (pow2_ge_0 (y - predict_sum (depth_of s) (trees b') x)). cbn [fst snd]. lra. }
    set (a' := (i_sigma2_alpha s + IZR (zlen (i_y s)) / 2)%R). set (b0 := (i_sigma2_beta s + sq / 2)%R).
    set (data := combine (points_of s) (i_y s)).
    set (K := (product (map (tree_density s (zlen (trees b'))) (trees b')) * (/ sqrt (2 * PI)) ^ length data)%R).
    assert (EQ : forall v, (0 < v)%R -> posterior_density s (trees b') v = (K * invgamma_density a' b0 v)%R).
    { intros v Hv. unfold posterior_density. fold data. rewrite Rmult_assoc.
      rewrite (invgamma_updates (predict_sum (depth_of s) (trees b'))) by auto.
      unfold data at 3. rewrite squares_order. fold sq. fold b0.
      assert (ED : length data = length (i_y s)).
      { unfold data, points_of. rewrite combine_length, map_length. pose proof (ok_n _ OK) as E. unfold zlen in E. lia. }
      assert (EA : (i_sigma2_alpha s + INR (length data) / 2)%R = a').
      { unfold a', zlen. rewrite ED, INR_IZR_INZ. reflexivity. }
      unfold K. rewrite Rmult_assoc.
      exact (f_equal (fun z => _ * (_ * invgamma_density z b0 v))%R EA). }
    assert (KP : (0 < K)%R).
    { unfold K. apply Rmult_lt_0_compat.
      - apply product_pos. intros x Hx. apply in_map_iff in Hx. destruct Hx as (u & <- & Hu).
        assert (0 < zlen (trees b')) by (destruct (trees b'); [destruct Hu | unfold zlen; cbn [length]; lia]).
        apply In_nth_error in Hu. destruct Hu as [j Hj]. now apply (tree_density_pos s c b' j u).
      - apply pow_lt, Rinv_0_lt_compat, sqrt_lt_R0. pose proof PI_RGT_0. lra. }
    assert (BP : (0 < b0)%R) by (unfold b0; lra).
    exists a', b0, K. split; [| split; [exact BP | split; [exact KP | split; [| split; [exact EQ |]]]]].
    - unfold a'. pose proof (zlen_nonneg _ (i_y s)) as Z. apply IZR_le in Z. lra.
    - exact (C16_noise_variance (g := g) s b k OK RE).
    - intros q x Hx Q. apply (invgamma_quantile _ b0) in Q; auto.
      replace (b0 / (b0 / x))%R with x in Q by (field; lra).
      destruct Q as (_ & total & TP & IT & IB). split; [exact Hx |]. exists (K * total)%R.
      split; [now apply Rmult_lt_0_compat | split].
      + exact (integral_scale _ _ _ _ K total at_right_pos infty_pos EQ IT).
      + replace (q * (K * total))%R with (K * (q * total))%R by ring.
        refine (integral_scale _ _ _ _ K (q * total)%R at_right_pos _ EQ IB). exact Hx.
  Qed.
End Props.
Print Assumptions C55_trees.
Print Assumptions C55_noise_variance.

(** ** A case that meets the hypotheses: the initial state of [one_settings] *)
Module Example.
  Local Existing Instance zclip.
  Local Existing Instance real_clip.
  Import PropBalance.Example.

  Example bayes_trees : regular one_settings 1 /\ reached one_settings start /\
    nth_error (trees start) 0 = Some stump /\ real_rng real_gen /\ (0 < sigma2 start)%R.
  Proof.
    destruct start_facts as (H1 & H2 & _). exact (conj one_regular (conj H1 (conj H2 (conj real_gen_ok start_positive)))).
  Qed.

  (** a posterior probability of the noise variance, strictly positive *)
  Example bayes_noise : forall k, exists q x, (0 < q)%R /\ (0 < x)%R /\
    is_quantile (posterior_density one_settings (trees (step (g := real_gen) start k))) q x.
  Proof.
    intros k. destruct start_facts as (RE & _).
    destruct (C55_noise_variance one_settings 1 start k real_gen one_regular RE real_gen_ok) as (a & b0 & K & A & B & _ & _ & _ & Q).
    - cbn. lra.
    - cbn. lra.
    - destruct (gamma_above a) as (l & LP & IL). destruct (gamma_integral a A) as (tot & TP & IT).
      exists (l / tot)%R, b0. split; [now apply Rdiv_lt_0_compat | split; [exact B |]]. apply Q; [exact B |].
      replace (b0 / b0)%R with 1%R by (field; lra). split; [lra |]. exists tot.
      split; [exact TP | split; [exact IT |]]. replace (l / tot * tot)%R with l by (field; lra). exact IL.
  Qed.
End Example.
