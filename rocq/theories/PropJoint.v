(** C49. The update of one tree, structure and values of the leaves, leaves the
    joint posterior invariant. *)
From Coq Require Import ZArith List Bool Lia Reals Lra.
From Verif Require Import Base LemBase ModelJaxext ModelGrove ModelStep SpecTree
  SpecRange SpecForest SpecRun SpecPosterior SpecProposal SpecExact SpecMH SpecChance SpecBalance SpecKernel Laws
  ProofTree ProofStep ProofRun ProofForest ProofTransition ProofNormal ProofGauss PropForest PropExact PropMH ProofChance
  ProofProb ProofShape ProofBalance ProofDetailed ProofKernel PropBalance PropKernel Examples ExampleReal.
Import ListNotations.
Open Scope Z_scope.

(** ** Products over the points, grouped by leaf *)

Lemma product_mult {A} (f h : A -> R) l :
  product (map (fun a => f a * h a)%R l) = (product (map f l) * product (map h l))%R.
Proof. unfold product. induction l as [| a l IH]; cbn [map fold_right]; [lra | rewrite IH; lra]. Qed.

Lemma product_one : forall (j : Z) x (F : Z -> R) l, NoDup l -> In j l ->
  product (map (fun i => (if j =? i then x else 1) * F i)%R l) = (x * product (map F l))%R.
Proof.
  intros j x F l ND Hj. rewrite product_mult. f_equal.
  induction l as [| a l IH]; [destruct Hj |]. inversion ND as [| ? ? N1 N2]; subst. unfold product. cbn [map fold_right].
  destruct (Z.eqb_spec j a) as [E | E].
  - subst a. assert (E : product (map (fun i => if j =? i then x else 1%R) l) = 1%R).
    { clear - N1. induction l as [| b l IH]; [reflexivity |]. unfold product. cbn [map fold_right].
      destruct (Z.eqb_spec j b) as [-> | E]; [exfalso; apply N1; now left |].
      fold (product (map (fun i => if j =? i then x else 1%R) l)). rewrite IH; [lra |]. intros H. apply N1. now right. }
    unfold product in E. rewrite E. lra.
  - destruct Hj as [-> | Hj]; [congruence |]. specialize (IH N2 Hj). unfold product in IH. rewrite IH. lra.
Qed.

Lemma product_groups {A} (h : A -> Z) (f : A -> R) l : NoDup l -> forall data, (forall a, In a data -> In (h a) l) ->
  product (map f data) = product (map (fun i => product (map f (filter (fun a => h a =? i) data))) l).
Proof.
  intros ND. induction data as [| a data IH]; intros H.
  - cbn [filter map]. clear. unfold product. induction l as [| i l IH]; cbn [map fold_right]; [reflexivity |].
    cbn [map fold_right] in IH. rewrite <- IH. lra.
  - assert (E : map (fun i => product (map f (filter (fun a0 => h a0 =? i) (a :: data)))) l =
      map (fun i => (if h a =? i then f a else 1) * product (map f (filter (fun a0 => h a0 =? i) data)))%R l).
    { apply map_ext. intros i. cbn [filter]. destruct (h a =? i); [reflexivity |]. symmetry. apply Rmult_1_l. }
    rewrite E, product_one by (auto; apply H; now left).
    rewrite <- IH by (intros; apply H; now right). reflexivity.
Qed.

Lemma dnorm_shift : forall o mu v y, dnorm (o + mu) v y = dnorm mu v (y - o).
Proof. intros o mu v y. unfold dnorm. do 3 f_equal. f_equal. ring. Qed.

Lemma likelihood_product : forall s2 mu rs, likelihood s2 mu rs = product (map (dnorm mu s2) rs).
Proof. intros s2 mu rs. unfold likelihood, product. induction rs as [| r rs IH]; cbn [map fold_right]; [reflexivity | now rewrite IH]. Qed.

Lemma leaf_of_leaves : forall x var sp levels i, In (leaf_of levels x var sp i) (leaves levels sp i).
Proof.
  intros x var sp. induction levels as [| levels IH]; intros i; cbn [leaf_of leaves]; [now left |].
  destruct (entry sp i =? 0); [now left |]. apply in_or_app. destruct (_ <? _); auto.
Qed.

Section Props.
  Context {zo : zoob} {foo : foob rops}.

  (** C49. The posterior of the rules and of the values of the leaves is the
      posterior of the rules, which integrates out the values, times the normal
      distributions of the values given the rules. *)
  Theorem C49_joint : forall s b k m t (g : rng rops) tr M mean var mu, settings_ok s -> reached s b ->
    nth_error (trees b) m = Some t -> (0 < sigma2 b)%R ->
    zlen (snd tr) = heap_size (depth_of s) ->
    is_tree_posterior s b k m g tr M ->
    (forall i, In i (leaves_of s tr) -> leaf_distribution s b k m g tr i (mean i) (var i)) ->
    joint_density s b k m g tr mu = (M * product (map (fun i => dnorm (mean i) (var i) (mu i)) (leaves_of s tr)))%R.
  Proof.
    intros s b k m t g tr M mean var mu OK RE Ht S2 LT (L & HL & ->) HD.
    pose proof (d_range s b OK RE) as DR. cbv zeta in DR. set (d := depth_of s) in *.
    assert (NT : (0 < IZR (zlen (trees b)))%R).
    { apply IZR_lt. assert (m < length (trees b))%nat by (apply nth_error_Some; congruence). unfold zlen. lia. }
    set (others := firstn m (trees (step (g := g) b k)) ++ skipn (S m) (trees b)) in *.
    set (data := combine (points_of s) (i_y s)) in *.
    set (rs i := leaf_residuals d others (fst tr) (snd tr) i data).
    set (f i := post_const (IZR (zlen (trees b))) (sigma2 b) (rs i)).
    assert (EL : L = product (map f (leaves_of s tr))).
    { eapply likelihood_unique; [exact HL |]. exists f. split; [| reflexivity]. intros i _. now apply marginal_exact. }
    assert (ND : NoDup (leaves_of s tr)).
    { unfold leaves_of. fold d. apply NoDup_leaves; [lia | apply levels_fit; auto; lia | constructor]. }
    unfold joint_density. fold d data. rewrite Rmult_assoc, Rmult_assoc. f_equal. rewrite EL.
    rewrite (product_groups (fun xy => falls_in s tr (fst xy)) _ (leaves_of s tr) ND data).
    2: { intros a _. apply leaf_of_leaves. }
    rewrite <- !product_mult. unfold product at 1 3. f_equal. apply map_ext_in. intros i Hi.
    pose proof (HD i Hi) as PD. unfold leaf_distribution in PD. fold d others data in PD. fold (rs i) in PD.
    destruct (posterior_unique _ _ _ _ _ _ _ PD (posterior_exact _ _ _ NT S2)) as [-> ->].
    unfold f. rewrite <- (posterior_form _ _ (rs i) (mu i) NT S2). f_equal.
    rewrite likelihood_product. unfold rs, leaf_residuals. rewrite map_map. unfold product. f_equal.
    unfold falls_in. fold d. apply map_ext_in. intros [x y] Hx. apply filter_In in Hx. destruct Hx as [_ Hx].
    cbn [fst snd] in *. apply Z.eqb_eq in Hx. rewrite Hx. apply dnorm_shift.
  Qed.

  (** C49. The joint posterior is stationary. In the situation of
      [C49_stationary], if rules and values are distributed according to the joint
      posterior, the rules alone have their posterior [M]; after the transition,
      with the new values drawn from their distribution given the new rules, the
      density of the new rules and values is again the joint posterior. *)
  Theorem C49_joint_stationary : forall s c m n state k (g : nat -> rng rops) tree_at P M, regular s c ->
    same_but_tree s m n state k g tree_at -> closed s m n state k g tree_at ->
    transition_matrix s m n state k g tree_at P ->
    (forall i, (i < n)%nat -> is_tree_posterior s (state i) (k i) m (g i) (rules_of (tree_at i)) (M i)) ->
    forall j mean var mu, (j < n)%nat ->
    (forall l, In l (leaves_of s (rules_of (tree_at j))) ->
       leaf_distribution s (state j) (k j) m (g j) (rules_of (tree_at j)) l (mean l) (var l)) ->
    (sum_to n (fun i => M i * P i j)
     * product (map (fun l => dnorm (mean l) (var l) (mu l)) (leaves_of s (rules_of (tree_at j)))))%R =
    joint_density s (state j) (k j) m (g j) (rules_of (tree_at j)) mu.
  Proof.
    intros s c m n state k g tree_at P M RG SB CL TM HM j mean var mu Hj HD.
    destruct (C49_stationary s c m n state k g tree_at P M RG SB CL TM HM) as (_ & _ & ST).
    rewrite (ST j Hj). symmetry.
    pose proof (sb_reached _ _ _ _ _ _ _ SB j Hj) as RE. pose proof (sb_tree _ _ _ _ _ _ _ SB j Hj) as Ht.
    eapply C49_joint; eauto.
    - exact (rg_ok _ _ RG).
    - now apply (sb_positive _ _ _ _ _ _ _ SB).
    - apply (shape_reached s c RG (state j) m (tree_at j) RE Ht).
  Qed.

  (** C49. The values that a step gives to the leaves, when it takes the tree
      from state [i] of the family to the structure of state [j], are drawn from
      those distributions. *)
  Theorem C49_new_leaves : forall s c m n state k (g : nat -> rng rops) tree_at, regular s c ->
    same_but_tree s m n state k g tree_at ->
    forall i j (g' : rng rops) t' l mean var, (i < n)%nat -> (j < n)%nat ->
    real_rng g' -> differ_only_at (draws_of_tree (state i) (k i) m) (g i) g' ->
    nth_error (trees (step (g := g') (state i) (k i))) m = Some t' -> shape_of s t' = shape_of s (tree_at j) ->
    In l (leaves_of s (rules_of (tree_at j))) ->
    leaf_distribution s (state j) (k j) m (g j) (rules_of (tree_at j)) l mean var ->
    t_split t' = t_split (tree_at j) /\
    zget 0%R (t_leaf t') l =
      (mean + r_normal (rng := g') (KSplit (KSplit (k i) 2 1) 2 0) (Z.of_nat m * 2 ^ depth_of s + l) * sqrt var)%R.
  Proof.
    intros s c m n state k g tree_at RG SB i j g' t' l mean var Hi Hj R' DF H' ES Hl HD.
    pose proof (rg_ok _ _ RG) as OK. pose proof (real_rng_laws _ R') as rl.
    pose proof (sb_reached _ _ _ _ _ _ _ SB i Hi) as REi. pose proof (sb_tree _ _ _ _ _ _ _ SB i Hi) as Hti.
    pose proof (sb_reached _ _ _ _ _ _ _ SB j Hj) as REj. pose proof (sb_tree _ _ _ _ _ _ _ SB j Hj) as Htj.
    assert (RE' : reached s (step (g := g') (state i) (k i))) by (apply reached_step; auto).
    pose proof (d_range s (state i) OK REi) as DR. cbv zeta in DR. set (d := depth_of s) in *.
    pose proof (shape_reached s c RG _ m t' RE' H') as SH'. fold d in SH'.
    pose proof (shape_reached s c RG _ m (tree_at j) REj Htj) as SHj. fold d in SHj.
    assert (D1 : 1 <= d) by lia.
    pose proof (structure_alike d D1 (rules_of t') (rules_of (tree_at j)) SH' SHj ES) as AL.
    assert (EQ : t_split t' = t_split (tree_at j)) by exact (proj1 AL).
    split; [exact EQ |].
    assert (LN : leaf_node (t_split t') l).
    { rewrite EQ. destruct SHj as (L1 & L2 & NS & Z0). unfold leaves_of in Hl. fold d in Hl. apply In_leaves in Hl; auto; try lia.
      - tauto.
      - now apply levels_fit.
      - constructor. }
    destruct (C15_leaf_posterior (g := g') s (state i) (k i) m (tree_at i) t' l OK REi (sb_positive _ _ _ _ _ _ _ SB i Hi) Hti H' LN)
      as (mean' & var' & PD & ->).
    assert (EM : mean' = mean /\ var' = var); [| destruct EM as [-> ->]; reflexivity].
    unfold leaf_distribution in HD. fold d in HD, PD.
    assert (NT : zlen (trees (state i)) = zlen (trees (state j))).
    { destruct (C05_forest_well_formed s (state i) OK REi) as [-> _]. now destruct (C05_forest_well_formed s (state j) OK REj) as [-> _]. }
    rewrite <- NT, <- (sb_sigma2 _ _ _ _ _ _ _ SB i j Hi Hj) in HD.
    eapply posterior_unique; [exact PD |].
    assert (ER : leaf_residuals d (firstn m (trees (step (g := g j) (state j) (k j))) ++ skipn (S m) (trees (state j)))
        (fst (rules_of (tree_at j))) (snd (rules_of (tree_at j))) l (combine (points_of s) (i_y s)) =
      leaf_residuals d (firstn m (trees (step (g := g') (state i) (k i))) ++ skipn (S m) (trees (state i)))
        (t_var t') (t_split t') l (combine (points_of s) (i_y s))).
    { assert (PF : firstn m (trees (step (g := g') (state i) (k i))) = firstn m (trees (step (g := g i) (state i) (k i)))).
      { symmetry. apply differ_prefix; [apply nth_error_Some; congruence | exact DF]. }
      rewrite PF. unfold leaf_residuals.
      match goal with |- map _ ?l = map _ ?l' => assert (EF : l = l') end.
      - apply filter_ext. intros xy. f_equal. symmetry. exact (alike_leaf d (fst xy) _ _ AL).
      - rewrite EF. apply map_ext. intros xy. cbv beta. f_equal. exact (sb_others _ _ _ _ _ _ _ SB j i Hj Hi (fst xy)). }
    rewrite ER in HD. exact HD.
  Qed.
End Props.
Print Assumptions C49_joint.
Print Assumptions C49_joint_stationary.
Print Assumptions C49_new_leaves.

(** ** A case that meets the hypotheses: the two states of [two_states], with a
    step that takes the first structure to the second *)
Module Example.
  Local Existing Instance zclip.
  Local Existing Instance real_clip.
  Import PropBalance.Example PropKernel.Example.

  Example two_states_joint : exists state k g tree_at P M mean var g' t',
    same_but_tree one_settings 0 2 state k g tree_at /\ closed one_settings 0 2 state k g tree_at /\
    transition_matrix one_settings 0 2 state k g tree_at P /\
    (forall i, (i < 2)%nat -> is_tree_posterior one_settings (state i) (k i) 0 (g i) (rules_of (tree_at i)) (M i)) /\
    (forall j l, (j < 2)%nat -> leaf_distribution one_settings (state j) (k j) 0 (g j) (rules_of (tree_at j)) l (mean j l) (var j l)) /\
    real_rng g' /\ differ_only_at (draws_of_tree (state 0%nat) (k 0%nat) 0) (g 0%nat) g' /\
    nth_error (trees (step (g := g') (state 0%nat) (k 0%nat))) 0 = Some t' /\
    shape_of one_settings t' = shape_of one_settings (tree_at 1%nat).
  Proof.
    destruct two_states as (state & k & g & tree_at & P & M & SB & CL & TM & HM & PP).
    destruct (probability_possible _ _ _ _ (sb_gen _ _ _ _ _ _ _ SB 0%nat ltac:(lia))
      (draws_nodup _ (k 0%nat) 0 _ (sb_tree _ _ _ _ _ _ _ SB 0%nat ltac:(lia)))
      (proj1 TM 0%nat 1%nat ltac:(lia) ltac:(lia) ltac:(lia)) PP) as (g' & R' & DF & t' & Ht' & ES).
    set (rs j l := leaf_residuals (depth_of one_settings)
      (firstn 0 (trees (step (g := g j) (state j) (k j))) ++ skipn 1 (trees (state j)))
      (fst (rules_of (tree_at j))) (snd (rules_of (tree_at j))) l (combine (points_of one_settings) (i_y one_settings))).
    exists state, k, g, tree_at, P, M,
      (fun j l => post_mean (IZR (zlen (trees (state j)))) (sigma2 (state j)) (rs j l)),
      (fun j l => post_var (IZR (zlen (trees (state j)))) (sigma2 (state j)) (rs j l)), g', t'.
    repeat (split; [assumption |]). split; [| auto].
    intros j l Hj. apply posterior_exact; [| now apply (sb_positive _ _ _ _ _ _ _ SB)].
    pose proof (one_tree _ (sb_reached _ _ _ _ _ _ _ SB j Hj)) as E. unfold zlen. rewrite E. apply IZR_lt. lia.
  Qed.
End Example.
