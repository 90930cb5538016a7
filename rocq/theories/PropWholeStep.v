(** C55. A whole step of the chain with one tree, the update of the tree followed
    by the update of the noise variance, leaves the posterior invariant. *)
From Coq Require Import ZArith List Bool Lia Reals Lra.
From Coquelicot Require Import Coquelicot.
From Verif Require Import Base LemBase ModelJaxext ModelGrove ModelStep SpecTree
  SpecRange SpecForest SpecRun SpecPosterior SpecProposal SpecExact SpecMH SpecChance SpecBalance SpecKernel SpecPrior SpecBayes
  SpecInvariant Laws
  ProofTree ProofStep ProofRun ProofForest ProofTransition ProofNormal ProofGauss ProofGamma PropForest PropExact PropMH ProofChance
  ProofProb ProofShape ProofBalance ProofDetailed ProofKernel PropBalance PropKernel PropJoint PropBayes PropInvariant SpecKeys SpecErgodic ProofExact ProofErgodic PropErgodic Examples ExampleReal.
Import ListNotations.
Open Scope Z_scope.

(** ** Finite sets and choices *)

Lemma classical_sublist {A} (P : A -> Prop) (l : list A) : exists l', NoDup l' /\ forall x, In x l' <-> In x l /\ P x.
Proof.
  induction l as [| a l (l' & ND & H)]; [exists []; split; [constructor | firstorder] |].
  destruct (Classical_Prop.classic (P a /\ ~ In a l')) as [[Pa Na] | N].
  - exists (a :: l'). split; [now constructor |]. intros x. cbn [In]. rewrite H. intuition (subst; auto).
  - exists l'. split; [exact ND |]. intros x. rewrite H. cbn [In]. split; [tauto |].
    intros [[<- | Hx] Px]; [| tauto]. apply H. destruct (Classical_Prop.classic (In a l')); tauto.
Qed.

Lemma finite_choice {A} (d : A) (n : nat) (Q : nat -> A -> Prop) : (forall i, (i < n)%nat -> exists x, Q i x) ->
  exists f : nat -> A, forall i, (i < n)%nat -> Q i (f i).
Proof.
  induction n as [| n IH]; intros H; [exists (fun _ => d); intros; lia |].
  destruct IH as [f Hf]; [intros i Hi; apply H; lia |]. destruct (H n) as [x Hx]; [lia |].
  exists (fun i => if Nat.eqb i n then x else f i). intros i Hi.
  destruct (Nat.eqb_spec i n) as [-> | N]; [exact Hx | apply Hf; lia].
Qed.

(** all the trees with rules in given ranges *)
Fixpoint all_trees (p B : nat) (levels : nat) : list (dtree unit) :=
  match levels with
  | O => [DLeaf tt]
  | S levels => DLeaf tt :: flat_map (fun v => flat_map (fun cut => flat_map (fun l =>
      map (fun r => DNode (Z.of_nat v) (Z.of_nat cut - Z.of_nat B) l r) (all_trees p B levels)) (all_trees p B levels))
      (seq 0 (2 * B + 1))) (seq 0 p)
  end.

Lemma points_bounded (p : nat) (pts : list (Z -> Z)) : exists B : nat, forall x v, In x pts -> 0 <= v < Z.of_nat p ->
  Z.abs (x v) <= Z.of_nat B.
Proof.
  induction pts as [| x pts [B HB]]; [exists O; intros x v [] |].
  assert (H : exists C : nat, forall v, 0 <= v < Z.of_nat p -> Z.abs (x v) <= Z.of_nat C).
  { clear. induction p as [| p [C HC]]; [exists O; intros; lia |]. exists (Nat.max C (Z.abs_nat (x (Z.of_nat p)))).
    intros v Hv. destruct (Z.eq_dec v (Z.of_nat p)) as [-> | N]; [lia |]. specialize (HC v). lia. }
  destruct H as [C HC]. exists (Nat.max B C). intros y v [<- | Hy] Hv; [specialize (HC v Hv) | specialize (HB y v Hy Hv)]; lia.
Qed.

Lemma filled_all (p : nat) (c : Z) (pts : list (Z -> Z)) (B : nat) : 1 <= c ->
  (forall x v, In x pts -> 0 <= v < Z.of_nat p -> Z.abs (x v) <= Z.of_nat B) ->
  forall T levels sub, incl sub pts -> filled (Z.of_nat p) c levels T sub -> In T (all_trees p B levels) /\ sub <> [].
Proof.
  intros Hc HB. induction T as [[] | v cut l IHl r IHr]; intros levels sub IN FI; cbn [filled] in FI.
  - split; [destruct levels; now left |]. intros ->. unfold zlen in FI. cbn in FI. lia.
  - destruct levels as [| levels]; [contradiction |]. destruct FI as (Hv & Fl & Fr).
    destruct (IHl levels _ (fun x Hx => IN x (proj1 (proj1 (filter_In _ _ _) Hx))) Fl) as [Al Nl].
    destruct (IHr levels _ (fun x Hx => IN x (proj1 (proj1 (filter_In _ _ _) Hx))) Fr) as [Ar Nr].
    destruct (filter (fun x => x v <? cut) sub) as [| x1 l1] eqn:E1; [congruence |].
    destruct (filter (fun x => negb (x v <? cut)) sub) as [| x2 l2] eqn:E2; [congruence |].
    assert (H1 : In x1 sub /\ (x1 v <? cut) = true) by (apply (filter_In (fun x => x v <? cut)); rewrite E1; now left).
    assert (H2 : In x2 sub /\ negb (x2 v <? cut) = true) by (apply (filter_In (fun x => negb (x v <? cut))); rewrite E2; now left).
    destruct H1 as [I1 L1], H2 as [I2 L2]. apply Z.ltb_lt in L1. apply negb_true_iff, Z.ltb_ge in L2.
    pose proof (HB x1 v (IN x1 I1) Hv) as B1. pose proof (HB x2 v (IN x2 I2) Hv) as B2.
    split; [| intros ->; destruct I1].
    cbn [all_trees]. right. apply in_flat_map. exists (Z.to_nat v). split; [apply in_seq; lia |].
    apply in_flat_map. exists (Z.to_nat (cut + Z.of_nat B)). split; [apply in_seq; lia |].
    apply in_flat_map. exists l. split; [exact Al |]. apply in_map_iff. exists r. split; [| exact Ar].
    f_equal; lia.
Qed.

Section Props.
  Context {zo : zoob} {foo : foob rops}.

  (** parameters of the noise variance given the trees *)
  Definition noise_shape (s : @settings rops) : R := (i_sigma2_alpha s + IZR (zlen (i_y s)) / 2)%R.
  Definition noise_rate (s : @settings rops) (ts : list (@tree rops)) : R :=
    (i_sigma2_beta s + rsum (map2 (fun yv x => (yv - predict_sum (depth_of s) ts x) ^ 2)%R (i_y s) (points_of s)) / 2)%R.

  Lemma noise_rate_pos : forall (s : @settings rops) (ts : list (@tree rops)), (0 < i_sigma2_beta s)%R -> (0 < noise_rate s ts)%R.
  Proof.
    intros s ts Hb. unfold noise_rate.
    assert (SQ : (0 <= rsum (map2 (fun yv x => (yv - predict_sum (depth_of s) ts x) ^ 2)%R (i_y s) (points_of s)))%R).
    { rewrite <- (squares_order (predict_sum (depth_of s) ts)). unfold rsum.
      induction (combine _ _) as [| [x y] l IH]; cbn [map fold_right]; [lra |].
      pose proof (pow2_ge_0 (y - predict_sum (depth_of s) ts x)). cbn [fst snd]. lra. }
    lra.
  Qed.

  Lemma noise_factor : forall (s : @settings rops) (ts : list (@tree rops)), settings_ok s -> exists K, forall v, (0 < v)%R ->
    posterior_density s ts v = (K * invgamma_density (noise_shape s) (noise_rate s ts) v)%R.
  Proof.
    intros s ts OK. set (data := combine (points_of s) (i_y s)).
    exists (product (map (tree_density s (zlen ts)) ts) * (/ sqrt (2 * PI)) ^ length data)%R.
    intros v Hv. unfold posterior_density. fold data. rewrite Rmult_assoc.
    rewrite (invgamma_updates (predict_sum (depth_of s) ts)) by auto.
    unfold data at 3. rewrite squares_order. fold (noise_rate s ts).
    assert (ED : length data = length (i_y s)).
    { unfold data, points_of. rewrite combine_length, map_length. pose proof (ok_n _ OK) as E. unfold zlen in E. lia. }
    assert (EA : (i_sigma2_alpha s + INR (length data) / 2)%R = noise_shape s).
    { unfold noise_shape, zlen. rewrite ED, INR_IZR_INZ. reflexivity. }
    rewrite Rmult_assoc.
    exact (f_equal (fun z => _ * (_ * invgamma_density z (noise_rate s ts) v))%R EA).
  Qed.

  (** C55. Let [h v] be the density of structure [j] with values [mu] after the
      update of the tree with noise variance [v]. Multiply it by the density of the
      new noise variance [v'] and integrate over the previous noise variance [v]:
      this is the posterior at structure [j], values [mu], noise variance [v']. The
      step sets the noise variance to b0 / G with G the draw of a gamma variable. *)
  Theorem C55_step_one_tree : forall (s : @settings rops) c n tree_at j mu h,
    regular s c -> i_num_trees s = 1 -> (0 < i_sigma2_alpha s)%R -> (0 < i_sigma2_beta s)%R -> (j < n)%nat ->
    (forall v, (0 < v)%R -> density_after_tree s n tree_at j mu v (h v)) ->
    exists a' b0 total, (0 < a')%R /\ (0 < b0)%R /\ (0 < total)%R /\ integral_positive (gamma_density a') total /\
      (forall b k (g : rng rops), reached s b -> real_rng g ->
         (forall x, predict_sum (depth_of s) (trees (step (g := g) b k)) x = predict_sum (depth_of s) [with_values (tree_at j) mu] x) ->
         sigma2 (step (g := g) b k) = (b0 / r_gamma (rng := g) (KSplit k 2 0) a')%R) /\
      (forall v', (0 < v')%R ->
         integral_positive (fun v => h v * quotient_density b0 (gamma_density a') total v')%R
           (posterior_at s [] [] v' (tree_at j) mu)).
  Proof.
    intros s c n tree_at j mu h RG ONE Ha Hb Hj FAM. pose proof (rg_ok _ _ RG) as OK.
    set (t' := with_values (tree_at j) mu).
    pose proof (noise_rate_pos s [t'] Hb) as BP. set (b0 := noise_rate s [t']) in *.
    assert (AP : (0 < noise_shape s)%R).
    { unfold noise_shape. pose proof (zlen_nonneg _ (i_y s)) as Z. apply IZR_le in Z. lra. }
    set (a' := noise_shape s) in *.
    destruct (gamma_integral a' AP) as (total & TP & IT).
    exists a', b0, total. split; [exact AP | split; [exact BP | split; [exact TP | split; [exact IT | split]]]].
    - intros b kb gb RE RR EP. pose proof (real_rng_laws _ RR) as rl.
      rewrite (C16_noise_variance (g := gb) s b kb OK RE). unfold a', b0, noise_shape, noise_rate.
      assert (E : map2 (fun yv x => (yv - predict_sum (depth_of s) (trees (step (g := gb) b kb)) x) ^ 2)%R (i_y s) (points_of s) =
        map2 (fun yv x => (yv - predict_sum (depth_of s) [t'] x) ^ 2)%R (i_y s) (points_of s)).
      { generalize (points_of s). induction (i_y s) as [| y l IH]; intros [| x pts]; try reflexivity.
        cbn [map2]. now rewrite IH, EP. }
      rewrite E. reflexivity.
    - intros v' Hv'. destruct (noise_factor s [t'] OK) as [K EQ]. fold a' b0 in EQ.
      set (D := quotient_density b0 (gamma_density a') total v').
      replace (posterior_at s [] [] v' (tree_at j) mu) with (D * K * (Rpower b0 (- a') * total))%R.
      2: { unfold posterior_at. cbn [app]. fold t'. rewrite (EQ v' Hv'). unfold D, quotient_density.
        replace (gamma_density a' (b0 / v') / total * (b0 / (v' * v')))%R with (b0 / (v' * v') * gamma_density a' (b0 / v') / total)%R by (field; lra).
        rewrite (change_density a' b0 v' BP Hv'), Rpower_Ropp.
        pose proof (exp_pos (a' * ln b0)) as PP. fold (Rpower b0 a') in PP. field. lra. }
      refine (integral_scale _ _ _ _ (D * K)%R _ at_right_pos infty_pos _ (change_positive a' b0 total BP IT)).
      intros v Hv. destruct (FAM v Hv) as (state & k & g & P & W & mu0 & mean & var & SB & CL & TM & EV & HW & HD & ->).
      assert (SO : same_others 0 n state k g [] []).
      { intros i Hi. split; [reflexivity |].
        destruct (C05_forest_well_formed s (state i) OK (sb_reached _ _ _ _ _ _ _ SB i Hi)) as [NT _].
        rewrite ONE in NT. change (Z.max 0 1) with 1 in NT. unfold zlen in NT.
        destruct (trees (state i)) as [| t [| t2 l]]; cbn [length] in NT; [lia | reflexivity | lia]. }
      rewrite (C55_invariant s c 0 n state k g tree_at P [] [] v W mu0 RG SB CL TM SO EV HW j mean var mu Hj HD).
      unfold posterior_at. cbn [app]. fold t'. rewrite (EQ v Hv). fold D. ring.
  Qed.

  (** same generator, but the draw of the noise variance is [a] *)
  Definition with_gamma (g : rng rops) (a : R) : rng rops := {|
    r_unif := r_unif (rng := g); r_unif_to := r_unif_to (rng := g); r_bits := r_bits (rng := g);
    r_normal := r_normal (rng := g); r_gamma := fun _ _ => a : @F rops |}.

  Lemma with_gamma_ok : forall g a, real_rng g -> (0 < a)%R -> real_rng (with_gamma g a).
  Proof. intros g a [H1 H2 H3 H4] Ha. constructor; auto. Qed.

  Lemma with_gamma_trees : forall g a (b : @bart rops) k,
    trees (step (g := with_gamma g a) b k) = trees (step (g := g) b k).
  Proof.
    intros g a b k.
    set (m := (length (trees (step (g := with_gamma g a) b k)) + length (trees (step (g := g) b k)))%nat).
    rewrite <- (firstn_all2 (n := m) (trees (step (g := with_gamma g a) b k))) by lia.
    rewrite <- (firstn_all2 (n := m) (trees (step (g := g) b k))) by lia.
    apply (same_prefix (with_gamma g a) g b k m); [| reflexivity]. intros j _ _. split; [reflexivity |]. split; [reflexivity |].
    intros dr Hd. unfold tree_draws in Hd. cbn [In] in Hd. intuition (subst dr; try intros hi; reflexivity).
  Qed.

  (** the same step, but with noise variance [v] *)
  Definition with_noise (s : @settings rops) (g : rng rops) (b : @bart rops) (k : key) (v : R) : @bart rops :=
    step (g := with_gamma g (noise_rate s (trees (step (g := g) b k)) / v)) b k.

  Lemma with_noise_ok : forall (s : @settings rops) g (b : @bart rops) k v, settings_ok s -> (0 < i_sigma2_beta s)%R -> reached_real s b -> real_rng g -> (0 < v)%R ->
    reached_real s (with_noise s g b k v) /\ trees (with_noise s g b k v) = trees (step (g := g) b k) /\
    sigma2 (with_noise s g b k v) = v.
  Proof.
    intros s g b k v OK Hb RE RR Hv. unfold with_noise. set (ts := trees (step (g := g) b k)).
    pose proof (noise_rate_pos s ts Hb) as NP. set (a := (noise_rate s ts / v)%R).
    assert (Ha : (0 < a)%R) by (apply Rdiv_lt_0_compat; auto).
    pose proof (with_gamma_ok g a RR Ha) as R'. pose proof (real_rng_laws _ R') as rl.
    split; [now apply rreached_step | split; [apply with_gamma_trees |]].
    rewrite (C16_noise_variance (g := with_gamma g a) s b k OK (reached_real_reached s b RE)), with_gamma_trees. fold ts.
    change (noise_rate s ts / a = v)%R. unfold a. field. lra.
  Qed.

  (** C55. In every setting with one tree: there are finitely many structures
      that a tree can have after a step, and for each of them the step leaves the
      posterior invariant. *)
  Theorem C55_whole_step : forall (s : @settings rops) c,
    regular s c -> i_num_trees s = 1 -> (0 < i_sigma2_alpha s)%R -> (0 < i_sigma2_beta s)%R ->
    exists n tree_at, (0 < n)%nat /\
      (forall i j, (i < n)%nat -> (j < n)%nat -> shape_of s (tree_at i) = shape_of s (tree_at j) -> i = j) /\
      (forall b k (g : rng rops) t, reached_real s b -> real_rng g -> nth_error (trees (step (g := g) b k)) 0 = Some t ->
         exists j, (j < n)%nat /\ shape_of s t = shape_of s (tree_at j)) /\
      forall j mu, (j < n)%nat ->
      exists h, (forall v, (0 < v)%R -> density_after_tree s n tree_at j mu v (h v)) /\
      exists a' b0 total, (0 < a')%R /\ (0 < b0)%R /\ (0 < total)%R /\ integral_positive (gamma_density a') total /\
        (forall b k (g : rng rops), reached s b -> real_rng g ->
           (forall x, predict_sum (depth_of s) (trees (step (g := g) b k)) x = predict_sum (depth_of s) [with_values (tree_at j) mu] x) ->
           sigma2 (step (g := g) b k) = (b0 / r_gamma (rng := g) (KSplit k 2 0) a')%R) /\
        (forall v', (0 < v')%R ->
           integral_positive (fun v => h v * quotient_density b0 (gamma_density a') total v')%R
             (posterior_at s [] [] v' (tree_at j) mu)).
  Proof.
    intros s c RG ONE Ha Hb. pose proof (rg_ok _ _ RG) as OK.
    set (p := Z.to_nat (zlen (i_max_split s))).
    assert (EP : Z.of_nat p = zlen (i_max_split s)) by (unfold p; pose proof (zlen_nonneg _ (i_max_split s)); lia).
    destruct (points_bounded p (points_of s)) as [B HB].
    set (Reach := fun T => exists b k (g : rng rops) t, reached_real s b /\ real_rng g /\
      nth_error (trees (step (g := g) b k)) 0 = Some t /\ shape_of s t = T).
    destruct (classical_sublist Reach (all_trees p B (Z.to_nat (depth_of s) - 1))) as (Ts & ND & HT).
    assert (RT : forall b k (g : rng rops) t, reached_real s b -> real_rng g -> nth_error (trees (step (g := g) b k)) 0 = Some t ->
      In (shape_of s t) Ts).
    { intros b k g t RE RR Ht. apply HT. split; [| exists b, k, g, t; auto].
      assert (RE' : reached s (step (g := g) b k)) by (apply reached_real_reached; now apply rreached_step).
      destruct (C53_admissible s c _ t RG RE' (nth_error_In _ _ Ht)) as [-> | FI].
      - destruct (Z.to_nat (depth_of s) - 1)%nat; now left.
      - rewrite <- EP in FI. exact (proj1 (filled_all p c (points_of s) B (rg_one _ _ RG) HB _ _ _ (incl_refl _) FI)). }
    assert (one : forall b, reached s b -> length (trees b) = 1%nat).
    { intros b RE. destruct (C05_forest_well_formed s b OK RE) as [NT _].
      rewrite ONE in NT. change (Z.max 0 1) with 1 in NT. unfold zlen in NT. lia. }
    set (n := length Ts).
    destruct (finite_choice (init_of s, KRoot 0, real_gen, mktree (fo := rops) [] [] [] [] None) n
      (fun i w => let '(b, k, g, t) := w in reached_real s b /\ real_rng g /\
        nth_error (trees (step (g := g) b k)) 0 = Some t /\ shape_of s t = nth i Ts (DLeaf tt))) as [f Hf].
    { intros i Hi. destruct (proj1 (HT (nth i Ts (DLeaf tt))) (nth_In _ _ Hi)) as (_ & b & k & g & t & H). exists (b, k, g, t). exact H. }
    set (fb := fun i => fst (fst (fst (f i)))). set (fk := fun i => snd (fst (fst (f i)))).
    set (fg := fun i => snd (fst (f i))). set (tree_at := fun i => snd (f i)).
    assert (Hw : forall i, (i < n)%nat -> reached_real s (fb i) /\ real_rng (fg i) /\
      nth_error (trees (step (g := fg i) (fb i) (fk i))) 0 = Some (tree_at i) /\ shape_of s (tree_at i) = nth i Ts (DLeaf tt)).
    { intros i Hi. specialize (Hf i Hi). unfold fb, fk, fg, tree_at. destruct (f i) as [[[b k] g] t]. exact Hf. }
    clearbody fb fk fg tree_at. clear f Hf.
    assert (DI : forall i j, (i < n)%nat -> (j < n)%nat -> shape_of s (tree_at i) = shape_of s (tree_at j) -> i = j).
    { intros i j Hi Hj E. destruct (Hw i Hi) as (_ & _ & _ & Ei), (Hw j Hj) as (_ & _ & _ & Ej).
      rewrite Ei, Ej in E. exact (proj1 (NoDup_nth Ts (DLeaf tt)) ND i j Hi Hj E). }
    assert (CO : forall b k (g : rng rops) t, reached_real s b -> real_rng g -> nth_error (trees (step (g := g) b k)) 0 = Some t ->
         exists j, (j < n)%nat /\ shape_of s t = shape_of s (tree_at j)).
    { intros b k g t RE RR Ht. destruct (In_nth _ _ (DLeaf tt) (RT b k g t RE RR Ht)) as (j & Hj & E).
      exists j. split; [exact Hj |]. destruct (Hw j Hj) as (_ & _ & _ & ->). now symmetry. }
    exists n, tree_at. split; [| split; [exact DI | split; [exact CO |]]].
    { pose proof (rreached_step s (init_of s) real_gen (KRoot 0) real_gen_ok (rreached_init s)) as R1.
      pose proof (one _ (reached_real_reached s _ R1)) as L1.
      destruct (trees (step (g := real_gen) (init_of s) (KRoot 0))) as [| t l] eqn:E; [discriminate |].
      pose proof (RT (init_of s) (KRoot 0) real_gen t (rreached_init s) real_gen_ok) as I. rewrite E in I. specialize (I eq_refl).
      unfold n. destruct Ts; [destruct I | cbn [length]; lia]. }
    intros j mu Hj.
    exists (fun v => posterior_at s [] [] v (tree_at j) mu).
    assert (FA : forall v, (0 < v)%R -> density_after_tree s n tree_at j mu v (posterior_at s [] [] v (tree_at j) mu)).
    { intros v Hv. set (state := fun i => with_noise s (fg i) (fb i) (fk i) v).
      assert (ST : forall i, (i < n)%nat -> reached_real s (state i) /\ nth_error (trees (state i)) 0 = Some (tree_at i) /\ sigma2 (state i) = v).
      { intros i Hi. destruct (Hw i Hi) as (H1 & H2 & H3 & _).
        destruct (with_noise_ok s (fg i) (fb i) (fk i) v OK Hb H1 H2 Hv) as (W1 & W2 & W3). unfold state.
        split; [exact W1 | split; [now rewrite W2 | exact W3]]. }
      clearbody state. set (k := fun _ : nat => KRoot 0). set (g := fun _ : nat => real_gen).
      assert (SK : forall i, (i < n)%nat -> skipn 1 (trees (state i)) = []).
      { intros i Hi. destruct (ST i Hi) as (H1 & _). pose proof (one _ (reached_real_reached s _ H1)) as L.
        destruct (trees (state i)) as [| t [| t2 l]]; try discriminate L. reflexivity. }
      assert (SB : same_but_tree s 0 n state k g tree_at).
      { constructor.
        - intros i Hi. apply reached_real_reached, (ST i Hi).
        - intros i Hi. apply (ST i Hi).
        - intros i Hi. exact real_gen_ok.
        - intros i Hi. destruct (ST i Hi) as (_ & _ & ->). exact Hv.
        - intros i i' Hi Hi'. destruct (ST i Hi) as (_ & _ & ->), (ST i' Hi') as (_ & _ & ->). reflexivity.
        - intros i i' Hi Hi' x. unfold others_value. cbn [firstn]. now rewrite (SK i Hi), (SK i' Hi').
        - exact DI. }
      assert (SO : same_others 0 n state k g [] []) by (intros i Hi; split; [reflexivity | exact (SK i Hi)]).
      assert (CL : closed s 0 n state k g tree_at).
      { intros i T g' Hi R' _ (t & Ht & <-). exact (CO (state i) (k i) g' t (proj1 (ST i Hi)) R' Ht). }
      assert (EV : forall i, (i < n)%nat -> sigma2 (state i) = v) by (intros i Hi; apply (ST i Hi)).
      destruct (finite_choice (fun _ => 0%R) n (fun i row => forall j, (j < n)%nat -> i <> j ->
        has_probability (draws_of_tree (state i) (k i) 0) (g i) (becomes s (state i) (k i) 0 (shape_of s (tree_at j))) (row j)))
        as [P0 HP0].
      { intros i Hi.
        destruct (finite_choice 0%R n (fun j q => i <> j ->
          has_probability (draws_of_tree (state i) (k i) 0) (g i) (becomes s (state i) (k i) 0 (shape_of s (tree_at j))) q)) as [row Hr].
        - intros j' Hj'. destruct (Nat.eq_dec i j') as [E | N]; [exists 0%R; congruence |].
          destruct (C49_probability s c (state i) (k i) 0 (tree_at i) (shape_of s (tree_at j')) (g i) RG
            (sb_reached _ _ _ _ _ _ _ SB i Hi) (sb_tree _ _ _ _ _ _ _ SB i Hi) real_gen_ok (sb_positive _ _ _ _ _ _ _ SB i Hi)) as (q & Q & _).
          + intros E. apply N. now apply DI.
          + exists q. intros _. exact Q.
        - exists row. intros j' Hj' N. exact (Hr j' Hj' N). }
      set (P := fun i j => if Nat.eqb j i then (1 - sum_except n i (P0 i))%R else P0 i j).
      assert (TM : transition_matrix s 0 n state k g tree_at P).
      { split.
        - intros i j' Hi Hj' N. unfold P. destruct (Nat.eqb_spec j' i) as [E | _]; [congruence |]. now apply HP0.
        - intros i Hi.
          assert (E : sum_except n i (P0 i) = sum_except n i (P i)).
          { unfold sum_except, sum_to. apply (f_equal (fold_right Rplus 0%R)).
            apply map_ext. intros j'. unfold P. destruct (Nat.eqb j' i); reflexivity. }
          rewrite <- E. unfold P. now rewrite Nat.eqb_refl. }
      destruct (finite_choice 0%R n (fun i w =>
        is_integral (leaves_of s (rules_of (tree_at i))) (posterior_at s [] [] v (tree_at i)) (fun _ => 0%R) w)) as [W HW].
      { intros i Hi. pose proof (sb_tree _ _ _ _ _ _ _ SB i Hi) as Ht. pose proof (sb_positive _ _ _ _ _ _ _ SB i Hi) as S2.
        destruct (tree_posterior_exists s (state i) (k i) 0 _ (g i) (rules_of (tree_at i)) Ht S2) as [M HM].
        eexists. exact (posterior_integral s c 0 n state k g tree_at [] [] v i M (fun _ => 0%R) RG SB SO Hi (EV i Hi) HM). }
      destruct (leaf_distribution_exists s (state j) (k j) 0 _ (g j) (rules_of (tree_at j))
        (sb_tree _ _ _ _ _ _ _ SB j Hj) (sb_positive _ _ _ _ _ _ _ SB j Hj)) as (mean & var & HD).
      exists state, k, g, P, W, (fun _ => 0%R), mean, var.
      refine (conj SB (conj CL (conj TM (conj EV (conj HW (conj (fun l _ => HD l) _)))))).
      symmetry. exact (C55_invariant s c 0 n state k g tree_at P [] [] v W (fun _ => 0%R) RG SB CL TM SO EV HW j mean var mu Hj (fun l _ => HD l)). }
    split; [exact FA |].
    exact (C55_step_one_tree s c n tree_at j mu _ RG ONE Ha Hb Hj FA).
  Qed.
End Props.
Print Assumptions C55_step_one_tree.
Print Assumptions C55_whole_step.

(** ** A case that meets the hypotheses: [one_settings] *)
Module Example.
  Local Existing Instance zclip.
  Local Existing Instance real_clip.
  Import PropBalance.Example.

  Example one_tree_setting : regular one_settings 1 /\ i_num_trees one_settings = 1 /\
    (0 < i_sigma2_alpha one_settings)%R /\ (0 < i_sigma2_beta one_settings)%R.
  Proof. refine (conj one_regular (conj eq_refl (conj _ _))); cbn; lra. Qed.
End Example.
