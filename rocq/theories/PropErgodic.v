(** C53: the sampler can visit every admissible forest. *)
From Coq Require Import ZArith List Bool Lia Reals Lra.
From Verif Require Import Base ModelStep SpecTree SpecForest SpecRun SpecExact SpecMH SpecChance SpecBalance SpecErgodic
  Laws PropExact ProofBalance ProofDetailed ProofErgodic PropBalance ProofExact Examples ExampleReal.
Import ListNotations.
Open Scope Z_scope.

Section Ergodic.
  Context {zo : zoob} {foo : foob rops}.

  (** No structure other than the admissible ones is ever visited. *)
  Theorem C53_admissible : forall s c b t, regular s c -> reached s b -> In t (trees b) ->
    admissible s c (shape_of s t).
  Proof. intros s c b t RG. exact (reached_admissible s c RG b t). Qed.

  (** In one step, each tree can take, with positive probability, any admissible
      structure with one more decision node, and any structure with one decision
      node less, whatever the draws for the other trees and for the leaves are. *)
  Theorem C53_moves : forall s c b k m t T (g : rng rops), regular s c -> reached s b ->
    nth_error (trees b) m = Some t -> real_rng g -> (0 < sigma2 b)%R ->
    (grows_to (shape_of s t) T /\ admissible s c T) \/ grows_to T (shape_of s t) ->
    exists q, (0 < q)%R /\ has_probability (draws_of_tree b k m) g (becomes s b k m T) q.
  Proof.
    intros s c b k m t T g RG RE Ht RR S2 [[G A] | G].
    - exact (grow_chance s c RG b k m t g RE Ht RR S2 T G A).
    - exact (prune_chance s c RG b k m t g RE Ht RR S2 T G).
  Qed.

  Lemma follow : forall s c, regular s c -> (0 < i_sigma2_alpha s)%R -> (0 < i_sigma2_beta s)%R ->
    forall n b Us, reached_real s b -> Forall2 (walk s c n) (map (shape_of s) (trees b)) Us ->
    exists b', leads_to b b' /\ map (shape_of s) (trees b') = Us.
  Proof.
    intros s c RG Ha Hb. induction n as [| n IH]; intros b Us RE F.
    - exists b. split; [constructor |]. clear RE. remember (map (shape_of s) (trees b)) as l. clear Heql.
      induction F as [| T U l Us E F IH']; [reflexivity |]. cbn [walk] in E. congruence.
    - assert (V : exists Vs, Forall2 (move s c) (map (shape_of s) (trees b)) Vs /\ Forall2 (walk s c n) Vs Us).
      { clear RE. remember (map (shape_of s) (trees b)) as l. clear Heql.
        induction F as [| T U l Us (V & M & W) F (Vs & H1 & H2)]; [exists []; split; constructor |].
        exists (V :: Vs). split; constructor; auto. }
      destruct V as (Vs & M & W). pose proof (rg_ok _ _ RG) as OK.
      destruct (one_step s c RG b (KRoot 0) Vs (reached_real_reached s b RE) (C16_positive s b OK RE Ha Hb) M) as (g & RR & E).
      destruct (IH (step (g := g) b (KRoot 0)) Us (rreached_step s b g _ RR RE)) as (b' & L & E'); [now rewrite E |].
      exists b'. split; auto. now apply (leads_step b b' g (KRoot 0)).
  Qed.

  (** From any state of a chain, the forest can take any admissible structures.
      A step with no rejected move changes the number of decision nodes of every
      tree by one, and the acceptance probability can be 1 for all the moves:
      the changes in the numbers of decision nodes have to be all even or all
      odd. *)
  Theorem C53_forest : forall s c b Us e, regular s c -> reached_real s b ->
    (0 < i_sigma2_alpha s)%R -> (0 < i_sigma2_beta s)%R ->
    Forall (admissible s c) Us ->
    Forall2 (fun t U => Z.even (size (shape_of s t) + size U) = e) (trees b) Us ->
    exists b', leads_to b b' /\ map (shape_of s) (trees b') = Us.
  Proof.
    intros s c b Us e RG RE Ha Hb A F.
    assert (B : exists N, forall n, (N <= n)%nat -> Z.even (Z.of_nat n) = e ->
      Forall2 (walk s c n) (map (shape_of s) (trees b)) Us).
    { clear RE. induction F as [| t U ts Us E F IH]; [exists 0%nat; constructor |].
      apply Forall_cons_iff in A as [A1 A2]. destruct (IH A2) as [N HN].
      set (T := shape_of s t) in *. exists (Nat.max N (Z.to_nat (size T + size U))).
      intros n Hn En. constructor; [| apply HN; [lia | exact En]].
      assert (EV : Z.even (Z.of_nat n - (size T + size U)) = true).
      { rewrite Z.even_sub, En. rewrite <- E. now rewrite eqb_reflx. }
      apply Z.even_spec in EV as [q Hq].
      pose proof (size_nonneg T). pose proof (size_nonneg U).
      destruct (walk_any s c T U (Z.to_nat q) A1) as [W1 W2].
      replace (Z.to_nat (size T + size U) + 2 * Z.to_nat q)%nat with n in W2 by lia. exact W2. }
    destruct B as [N HN].
    destruct (Bool.bool_dec (Z.even (Z.of_nat N)) e) as [E | E].
    - apply (follow s c RG Ha Hb N b Us RE). now apply HN.
    - apply (follow s c RG Ha Hb (S N) b Us RE). apply HN; [lia |].
      rewrite Nat2Z.inj_succ, Z.even_succ, <- Z.negb_even. destruct (Z.even (Z.of_nat N)), e; auto; congruence.
  Qed.

  (** Any one tree can take any admissible structure. *)
  Theorem C53_tree : forall s c b m U, regular s c -> reached_real s b ->
    (0 < i_sigma2_alpha s)%R -> (0 < i_sigma2_beta s)%R ->
    (m < length (trees b))%nat -> admissible s c U ->
    exists b' t', leads_to b b' /\ nth_error (trees b') m = Some t' /\ shape_of s t' = U.
  Proof.
    intros s c b m U RG RE Ha Hb Hm A. pose proof (rg_ok _ _ RG) as OK.
    destruct (nth_error (trees b) m) as [t |] eqn:Et; [| apply nth_error_None in Et; lia].
    destruct (walk_any s c (shape_of s t) U 0 A) as [_ W].
    remember (Z.to_nat (size (shape_of s t) + size U) + 2 * 0)%nat as n eqn:En. clear En.
    remember (shape_of s t) as T eqn:ET. revert b t T RE Hm Et ET W.
    induction n as [| n IH]; intros b t T RE Hm Et ET W; cbn [walk] in W.
    - exists b, t. split; [constructor |]. split; congruence.
    - destruct W as (V & M & W). subst T. pose proof (reached_real_reached s b RE) as RE'.
      destruct (one_tree s c RG b (KRoot 0) m t V some_rng RE' Et some_real (C16_positive s b OK RE Ha Hb) M)
        as (g & RR & _ & t' & Et' & EV).
      destruct (IH (step (g := g) b (KRoot 0)) t' V (rreached_step s b g _ RR RE)) as (b' & u & L & H); auto.
      { rewrite (shapes_length s b RE' g _ RR). exact Hm. }
      exists b', u. split; auto. now apply (leads_step b b' g (KRoot 0)).
  Qed.
End Ergodic.
Print Assumptions C53_admissible.
Print Assumptions C53_moves.
Print Assumptions C53_forest.
Print Assumptions C53_tree.

(** ** A case that meets the hypotheses: two trees with three levels, two
    predictors, five points. From the initial single leaves the first tree can
    get two decision nodes while the second is a single leaf again. *)
Module Example.
  Local Existing Instance zclip.
  Local Existing Instance real_clip.

  Definition two_settings : @settings rops := @mksettings rops
    [[0; 1]; [1; 0]; [2; 1]; [1; 1]; [2; 0]] (map IZR [3; -1; 4; -2; 1] : list (@F rops)) [2; 1] 8 2
    ([1 / 2; 1 / 4]%R : list (@F rops)) (1%R : @F rops) (1%R : @F rops) (Some 1) None None false.

  Lemma two_regular : regular two_settings 1.
  Proof.
    constructor; cbn [two_settings i_X i_y i_max_split i_min_points]; try reflexivity; try lia.
    - constructor; cbn [two_settings i_X i_y i_max_split i_split_bits i_num_trees i_p_nonterminal
        i_count_batch i_resid_batch]; try discriminate; try reflexivity; try lia.
      + unfold zlen; simpl; lia.
      + unfold zlen; simpl; lia.
      + intros m [<- | [<- | []]]; simpl; lia.
      + left. intros m [<- | [<- | []]]; simpl; lia.
      + intros x Hx. right. cbn [flt rops f0 F]. apply Rltb_spec.
        repeat destruct Hx as [<- | Hx]; try lra. destruct Hx.
    - intros x Hx. cbn [In] in Hx. intuition (subst; reflexivity).
    - intros x v Hx Hv. change (zlen [2; 1]) with 2 in Hv. assert (v = 0 \/ v = 1) as [-> | ->] by lia;
      cbn [In] in Hx; intuition (subst; vm_compute; congruence).
    - intros j Hj. change (depth_of two_settings) with 3 in Hj. assert (j = 0 \/ j = 1) as [-> | ->] by lia.
      + change (nonterminal two_settings 0) with (1 / 2)%R. lra.
      + change (nonterminal two_settings 1) with (1 / 4)%R. lra.
    - intros k _ _. vm_compute. discriminate.
  Qed.

  Definition target : dtree unit := DNode 0 1 (DLeaf tt) (DNode 1 1 (DLeaf tt) (DLeaf tt)).

  Example target_admissible : admissible two_settings 1 target.
  Proof. right. vm_compute. repeat split; congruence. Qed.

  (** a tree with an empty leaf is not admissible *)
  Example other_not_admissible : ~ admissible two_settings 1 (DNode 0 1 (DNode 1 1 (DLeaf tt) (DLeaf tt)) (DLeaf tt)).
  Proof. intros [H | H]; [discriminate |]. vm_compute in H. destruct H as (_ & (_ & H & _) & _). now apply H. Qed.

  Example forest_visited : exists b', leads_to (init_of two_settings) b' /\
    map (shape_of two_settings) (trees b') = [target; DLeaf tt].
  Proof.
    apply (C53_forest two_settings 1 _ _ true two_regular).
    - constructor.
    - cbn; lra.
    - cbn; lra.
    - constructor; [exact target_admissible |]. constructor; [now left | constructor].
    - constructor; [reflexivity |]. constructor; [reflexivity | constructor].
  Qed.

  (** a growth from the initial state *)
  Example first_growth : exists t, nth_error (trees (init_of two_settings)) 0 = Some t /\
    grows_to (shape_of two_settings t) (DNode 0 1 (DLeaf tt) (DLeaf tt)) /\
    admissible two_settings 1 (DNode 0 1 (DLeaf tt) (DLeaf tt)).
  Proof.
    eexists. split; [reflexivity |]. split.
    - change (shape_of two_settings _) with (DLeaf tt). constructor.
    - right. vm_compute. repeat split; congruence.
  Qed.
End Example.
