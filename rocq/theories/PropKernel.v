(** C49. The update of one tree is a Markov kernel that leaves the posterior of
    the structure of the tree invariant. *)
From Coq Require Import ZArith List Bool Lia Reals Lra.
From Verif Require Import Base LemBase ModelJaxext ModelGrove ModelStep SpecTree
  SpecRange SpecForest SpecRun SpecPosterior SpecProposal SpecExact SpecMH SpecChance SpecBalance SpecKernel Laws
  ProofTree ProofStep ProofRun ProofForest ProofTransition PropForest PropMH ProofChance ProofProb ProofShape ProofBalance
  ProofDetailed ProofKernel PropBalance Examples ExampleReal.
Import ListNotations.
Open Scope Z_scope.

(** ** Algebra of reversible matrices *)

Lemma sum_to_ext : forall n f f', (forall i, (i < n)%nat -> f i = f' i) -> sum_to n f = sum_to n f'.
Proof.
  intros n f f' H. unfold sum_to. f_equal. apply map_ext_in. intros i Hi. apply in_seq in Hi. apply H. lia.
Qed.

Lemma sum_to_scale : forall n x f, sum_to n (fun i => x * f i)%R = (x * sum_to n f)%R.
Proof. intros n x f. exact (total_scale f x (seq 0 n)). Qed.

Lemma sum_split_list : forall l j f, NoDup l -> In j l ->
  total f l = (f j + total (fun i => if Nat.eqb i j then 0 else f i) l)%R.
Proof.
  induction l as [| a l IH]; intros j f ND Hj; [destruct Hj |]. inversion ND as [| ? ? N1 N2]; subst.
  rewrite !total_cons. destruct (Nat.eqb_spec a j) as [E | E].
  - subst a. rewrite Rplus_0_l. f_equal. unfold total. f_equal. apply map_ext_in. intros i Hi.
    destruct (Nat.eqb_spec i j); [subst; contradiction | reflexivity].
  - destruct Hj as [-> | Hj]; [congruence |]. rewrite (IH j f N2 Hj). lra.
Qed.

Lemma sum_split : forall n j f, (j < n)%nat -> sum_to n f = (f j + sum_except n j f)%R.
Proof.
  intros n j f Hj. apply sum_split_list; [apply seq_NoDup |]. apply in_seq. lia.
Qed.

Lemma reversible_invariant : forall n (M : nat -> R) (P : nat -> nat -> R),
  (forall i j, (i < n)%nat -> (j < n)%nat -> i <> j -> (M i * P i j = M j * P j i)%R) ->
  (forall i, (i < n)%nat -> P i i = (1 - sum_except n i (P i))%R) ->
  forall j, (j < n)%nat -> sum_to n (fun i => M i * P i j)%R = M j.
Proof.
  intros n M P H D j Hj. rewrite (sum_split n j) by auto.
  assert (E : sum_except n j (fun i => M i * P i j)%R = (M j * sum_except n j (P j))%R).
  { unfold sum_except. rewrite <- sum_to_scale. apply sum_to_ext. intros i Hi.
    destruct (Nat.eqb_spec i j); [lra | now apply H]. }
  rewrite E, D by auto. lra.
Qed.

Lemma total_filter : forall j (f : nat -> R) l,
  total (fun i => if Nat.eqb i j then 0 else f i)%R l = total f (filter (fun i => negb (Nat.eqb i j)) l).
Proof.
  intros j f l. induction l as [| a l IH]; [reflexivity |]. rewrite total_cons, IH. cbn [filter].
  destruct (Nat.eqb a j); cbn [negb]; [lra | reflexivity].
Qed.

Section Props.
  Context {zo : zoob} {foo : foob rops}.

  (** C49. The probabilities of any different outcomes of the update, other than
      keeping the structure, add up to at most 1: what remains is the probability
      that the structure is kept. *)
  Theorem C49_total : forall s c b k m t (g : rng rops) (outcomes : list (dtree unit * R)), regular s c -> reached s b ->
    nth_error (trees b) m = Some t -> real_rng g -> (0 < sigma2 b)%R ->
    NoDup (map fst outcomes) -> ~ In (shape_of s t) (map fst outcomes) ->
    (forall T q, In (T, q) outcomes -> has_probability (draws_of_tree b k m) g (becomes s b k m T) q) ->
    (fold_right Rplus 0 (map snd outcomes) <= 1)%R.
  Proof.
    intros s c b k m t g l RG RE Ht RR S2 ND NI H.
    refine (kernel_total s c RG b k m t g RE Ht RR S2 l ND NI _). intros [T q] Ho. now apply H.
  Qed.

  (** C49. The posterior is a stationary distribution of the update. Consider
      states that differ only in the structure of tree [m], with all the
      structures that can follow from them. The diagonal of the matrix of the
      transition probabilities is not negative, nothing outside the family has
      positive probability, and if the structures are distributed in proportion to
      their posterior then so they are after the update. *)
  Theorem C49_stationary : forall s c m n state k (g : nat -> rng rops) tree_at P M, regular s c ->
    same_but_tree s m n state k g tree_at -> closed s m n state k g tree_at ->
    transition_matrix s m n state k g tree_at P ->
    (forall i, (i < n)%nat -> is_tree_posterior s (state i) (k i) m (g i) (rules_of (tree_at i)) (M i)) ->
    (forall i, (i < n)%nat -> (0 <= P i i)%R) /\
    (forall i T q, (i < n)%nat -> (forall j, (j < n)%nat -> T <> shape_of s (tree_at j)) ->
       has_probability (draws_of_tree (state i) (k i) m) (g i) (becomes s (state i) (k i) m T) q -> q = 0%R) /\
    (forall j, (j < n)%nat -> sum_to n (fun i => M i * P i j)%R = M j).
  Proof.
    intros s c m n state k g tree_at P M RG SB CL [TM TD] HM. split; [| split].
    - intros i Hi. rewrite TD by auto.
      assert (sum_except n i (P i) <= 1)%R; [| lra].
      set (l := filter (fun j => negb (Nat.eqb j i)) (seq 0 n)).
      assert (In_l : forall j, In j l <-> (j < n)%nat /\ j <> i).
      { intros j. unfold l. rewrite filter_In, in_seq, negb_true_iff, Nat.eqb_neq. lia. }
      pose proof (C49_total s c (state i) (k i) m (tree_at i) (g i) (map (fun j => (shape_of s (tree_at j), P i j)) l) RG
        (sb_reached _ _ _ _ _ _ _ SB i Hi) (sb_tree _ _ _ _ _ _ _ SB i Hi) (sb_gen _ _ _ _ _ _ _ SB i Hi)
        (sb_positive _ _ _ _ _ _ _ SB i Hi)) as H.
      rewrite !map_map in H. cbn [fst snd] in H.
      unfold sum_except, sum_to. fold (total (fun j => if Nat.eqb j i then 0 else P i j)%R (seq 0 n)).
      rewrite total_filter. apply H.
      + assert (NL : NoDup l) by (apply NoDup_filter, seq_NoDup).
        assert (B : forall j, In j l -> (j < n)%nat) by (intros j Hj; now apply In_l in Hj).
        clear - SB NL B. induction l as [| a l IH]; [constructor |]. inversion NL as [| ? ? N1 N2]; subst.
        cbn [map]. constructor; [| apply IH; auto; intros; apply B; now right].
        rewrite in_map_iff. intros (x & E & Hx). apply N1.
        rewrite <- (sb_distinct _ _ _ _ _ _ _ SB x a); auto; apply B; [now right | now left].
      + rewrite in_map_iff. intros (x & E & Hx). apply In_l in Hx. apply (proj2 Hx).
        apply (sb_distinct _ _ _ _ _ _ _ SB); tauto.
      + intros T q Hq. apply in_map_iff in Hq. destruct Hq as (j & E & Hj). injection E as <- <-. apply In_l in Hj.
        apply TM; try tauto. intros ->. tauto.
    - intros i T q Hi NT Q. destruct (probability_01 _ _ _ _ Q) as [[H | H] _]; auto. exfalso.
      destruct (probability_possible _ _ _ _ (sb_gen _ _ _ _ _ _ _ SB i Hi)
        (draws_nodup (state i) (k i) m (tree_at i) (sb_tree _ _ _ _ _ _ _ SB i Hi)) Q H) as (g' & R' & DF & B).
      destruct (CL i T g' Hi R' DF B) as (j & Hj & E). exact (NT j Hj E).
    - apply reversible_invariant; [| exact TD]. intros i j Hi Hj NE.
      assert (HMj : is_tree_posterior s (state i) (k i) m (g i) (rules_of (tree_at j)) (M j)).
      { destruct (HM j Hj) as (L & HL & ->). exists L. split; auto.
        assert (NT : zlen (trees (state i)) = zlen (trees (state j))).
        { pose proof (rg_ok _ _ RG) as OK.
          destruct (C05_forest_well_formed s (state i) OK (sb_reached _ _ _ _ _ _ _ SB i Hi)) as [-> _].
          now destruct (C05_forest_well_formed s (state j) OK (sb_reached _ _ _ _ _ _ _ SB j Hj)) as [-> _]. }
        rewrite NT, (sb_sigma2 _ _ _ _ _ _ _ SB i j Hi Hj).
        eapply likelihood_ext; [| exact HL]. intros x. exact (sb_others _ _ _ _ _ _ _ SB j i Hj Hi x). }
      refine (C49_detailed_balance s c (state i) (state j) m (tree_at i) (tree_at j) (k i) (k j) (g i) (g j) (M i) (M j)
        (P i j) (P j i) RG _ _ _ _ _ _ _ _ _ _ (HM i Hi) HMj _ _); try (apply SB; assumption).
      + intros E. apply NE. now apply (sb_distinct _ _ _ _ _ _ _ SB).
      + now apply TM.
      + apply TM; auto.
  Qed.
End Props.
Print Assumptions C49_total.
Print Assumptions C49_stationary.

(** ** A case that meets the hypotheses: one tree and one cutpoint, hence two
    structures *)
Module Example.
  Local Existing Instance zclip.
  Local Existing Instance real_clip.
  Import PropBalance.Example.

  (** the two structures are the only ones *)
  Lemma two_structures : forall b t, reached one_settings b -> nth_error (trees b) 0 = Some t ->
    shape_of one_settings t = shape_of one_settings stump \/ shape_of one_settings t = structure_of 2 split_rules.
  Proof.
    intros b t RE Ht. pose proof (rules_ok _ _ one_regular b 0 t RE Ht 1) as H.
    change (shape_of one_settings stump) with (@DLeaf unit tt).
    unfold shape_of, structure_of, structure. change (depth_of one_settings) with 2.
    change (Z.to_nat 2 - 1)%nat with 1%nat. cbn [decode]. cbn [rules_of fst snd] in H.
    destruct (Z.eqb_spec (entry (t_split t) 1) 0) as [E | E]; [left; reflexivity |]. right.
    destruct H as [V A]; [split; [lia | exact E] |].
    change (zlen (i_max_split one_settings)) with 1 in V.
    assert (EV : entry (t_var t) 1 = 0) by lia.
    unfold valid_rule in A. destruct A as [A _]. rewrite EV in A.
    change (entry (i_max_split one_settings) 0) with 1 in A.
    assert (EC : entry (t_split t) 1 = 1) by lia. rewrite EV, EC. reflexivity.
  Qed.

  Example two_states : exists state k g tree_at P M,
    same_but_tree one_settings 0 2 state k g tree_at /\ closed one_settings 0 2 state k g tree_at /\
    transition_matrix one_settings 0 2 state k g tree_at P /\
    (forall i, (i < 2)%nat -> is_tree_posterior one_settings (state i) (k i) 0 (g i) (rules_of (tree_at i)) (M i)) /\
    (0 < P 0%nat 1%nat)%R.
  Proof.
    destruct split_state as (b' & t' & RE' & Ht' & ES & SH & NE & OV).
    destruct start_facts as (RE & Ht & RS). pose proof start_positive as S2.
    assert (S2' : (0 < sigma2 b')%R) by (rewrite ES; exact S2).
    set (k := KRoot 0). pose proof real_gen_ok as RR.
    destruct (C49_probability one_settings 1 start k 0 stump (shape_of one_settings t') real_gen one_regular RE Ht RR S2 NE)
      as (q & Q & _).
    destruct (C49_probability one_settings 1 b' k 0 t' (shape_of one_settings stump) real_gen one_regular RE' Ht' RR S2' (not_eq_sym NE))
      as (q' & Q' & _).
    destruct (posterior_exists start k 0 stump real_gen (rules_of stump) RE Ht S2) as [M0 HM0].
    destruct (posterior_exists b' k 0 t' real_gen (rules_of t') RE' Ht' S2') as [M1 HM1].
    exists (fun i => match i with O => start | S _ => b' end), (fun _ => k), (fun _ => real_gen),
      (fun i => match i with O => stump | S _ => t' end),
      (fun i j => match i, j with O, O => 1 - q | O, S _ => q | S _, O => q' | S _, S _ => 1 - q' end)%R,
      (fun i => match i with O => M0 | S _ => M1 end).
    split; [| split; [| split; [| split]]].
    - constructor.
      + intros [| i] _; auto.
      + intros [| i] _; auto.
      + intros i _. exact RR.
      + intros [| i] _; auto.
      + intros [| i] [| j] _ _; auto.
      + intros [| i] [| j] _ _ x; auto.
      + intros [| [| i]] [| [| j]] Hi Hj; try lia; intros E; exfalso; congruence.
    - intros i T g' Hi R' _ (t1 & H1 & <-). pose proof (real_rng_laws _ R') as rl.
      assert (RE1 : reached one_settings (step (g := g') match i with O => start | S _ => b' end k)).
      { apply reached_step; auto. destruct i; auto. }
      destruct (two_structures _ _ RE1 H1) as [E | E]; [exists 0%nat | exists 1%nat]; split; try lia; auto.
      rewrite E. now rewrite SH.
    - split.
      + intros [| [| i]] [| [| j]] Hi Hj N; try lia; assumption.
      + intros [| [| i]] Hi; [| | lia]; unfold sum_except, sum_to; cbn [seq map fold_right Nat.eqb]; lra.
    - intros [| i] _; auto.
    - pose proof grow_root as (H1 & H2 & H3 & H4 & H5 & H6).
      destruct (posterior_exists start k 0 stump real_gen split_rules RE Ht S2) as [M' HM'].
      pose proof (C49_growth one_settings 1 start k 0 stump real_gen 1 0 1 M0 M' one_regular RE Ht RR S2) as G. cbv zeta in G.
      rewrite H6 in G. change (depth_of one_settings) with 2 in G.
      destruct (G H1 H2 H3) as (HP & P1 & P2 & P3 & P4); auto.
      + change (2 * 1) with 2. rewrite H4. lia.
      + change (2 * 1 + 1) with 3. rewrite H5. lia.
      + rewrite SH in Q.
        rewrite (probability_unique _ _ _ _ _ RR (draws_nodup start k 0 stump Ht) Q HP).
        apply Rmult_lt_0_compat; auto. apply Rmin_glb_lt; [lra |]. apply Rdiv_lt_0_compat; now apply Rmult_lt_0_compat.
  Qed.
End Example.
