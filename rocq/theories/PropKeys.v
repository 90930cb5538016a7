(** Random keys: C34. *)
From Coq Require Import ZArith List Bool Lia.
From Verif Require Import Base LemBase ModelJaxext ModelGrove ModelStep ModelLoop SpecLoop ProofLoop PropLoop
  SpecKeys.
Import ListNotations.
Open Scope Z_scope.

(** ** Keys *)

Fixpoint kdepth (k : key) : nat :=
  match k with KRoot _ => 0%nat | KSplit k _ _ => S (kdepth k) end.

Lemma derived_depth k k' : derived k k' -> (kdepth k <= kdepth k')%nat.
Proof. induction 1; cbn [kdepth]; lia. Qed.

Lemma derived_eq k k' : derived k k' -> kdepth k = kdepth k' -> k = k'.
Proof. intros H E. destruct H; auto. apply derived_depth in H. cbn [kdepth] in E. lia. Qed.

Lemma derived_trans a b c : derived a b -> derived b c -> derived a c.
Proof. intros H1 H2. induction H2; auto using derived_split. Qed.

Lemma derived_linear a b c : derived a c -> derived b c -> derived a b \/ derived b a.
Proof.
  intros H. revert b. induction H as [| k' n i H IH]; intros b Hb; [now right |].
  inversion Hb; subst; [left; now constructor | auto].
Qed.

Definition apart (a b : key) : Prop := ~ derived a b /\ ~ derived b a.

Lemma apart_sym a b : apart a b -> apart b a.
Proof. firstorder. Qed.

Lemma apart_below a b x y : apart a b -> derived a x -> derived b y -> apart x y.
Proof.
  intros [H1 H2] Ha Hb. split; intros H.
  - destruct (derived_linear a b y); eauto using derived_trans.
  - destruct (derived_linear a b x); eauto using derived_trans.
Qed.

Lemma apart_siblings k n i j : i <> j -> apart (KSplit k n i) (KSplit k n j).
Proof. intros H. split; intros D; apply derived_eq in D; auto; congruence. Qed.

(** ** Lists of pairwise apart keys *)

Definition all_apart (l : list draw) : Prop :=
  ForallOrdPairs (fun a b => apart (draw_key a) (draw_key b)) l.
Definition all_below (k : key) (l : list draw) : Prop :=
  Forall (fun d => derived k (draw_key d)) l.

Lemma all_apart_app l l' : all_apart l -> all_apart l' ->
  (forall a b, In a l -> In b l' -> apart (draw_key a) (draw_key b)) -> all_apart (l ++ l').
Proof.
  intros H H' C. induction H as [| a l Ha H IH]; auto. cbn [app]. constructor.
  - apply Forall_app. split; auto. apply Forall_forall. intros b Hb. apply C; auto. now left.
  - apply IH. intros x z Hx Hz. apply C; auto. now right.
Qed.

Lemma all_apart_blocks (key_of : nat -> key) (h : nat -> list draw) n :
  (forall i, (i < n)%nat -> all_apart (h i) /\ all_below (key_of i) (h i)) ->
  (forall i j, (i < j < n)%nat -> apart (key_of i) (key_of j)) ->
  all_apart (flat_map h (seq 0 n)).
Proof.
  induction n as [| n IH]; intros A C; [constructor |].
  rewrite seq_S, flat_map_app. cbn [flat_map Nat.add]. rewrite app_nil_r.
  apply all_apart_app.
  - apply IH; intros; [apply A | apply C]; lia.
  - apply A. lia.
  - intros a b Ha Hb. apply in_flat_map in Ha as (i & Hi & Ha). apply in_seq in Hi.
    destruct (A i ltac:(lia)) as [_ Bi]. destruct (A n ltac:(lia)) as [_ Bn].
    unfold all_below in *. rewrite Forall_forall in Bi, Bn.
    apply (apart_below (key_of i) (key_of n)); auto. apply C. lia.
Qed.

Ltac below := repeat first [apply derived_same | apply derived_split].

Lemma tree_draws_below k : all_below k (tree_draws k).
Proof. unfold all_below, tree_draws. repeat constructor. Qed.

Lemma step_draws_below n k : all_below k (step_draws n k).
Proof.
  unfold all_below, step_draws. apply Forall_app. split; [repeat constructor |].
  apply Forall_forall. intros d H. apply in_flat_map in H as (t & _ & H).
  pose proof (tree_draws_below (KSplit (KSplit (KSplit k 2 1) 2 1) (1 + Z.of_nat n) (1 + Z.of_nat t))) as B.
  unfold all_below in B. rewrite Forall_forall in B. eapply derived_trans; [| apply B, H]. below.
Qed.

Lemma tree_draws_apart k : all_apart (tree_draws k).
Proof.
  unfold all_apart, tree_draws.
  repeat (apply FOP_cons || apply FOP_nil || apply Forall_cons || apply Forall_nil); cbn [draw_key];
    (apply apart_siblings; lia) ||
    (eapply apart_below; [apply (apart_siblings k 2 0 1); lia | below | below]).
Qed.

Lemma step_draws_apart n k : all_apart (step_draws n k).
Proof.
  unfold step_draws. set (kt := KSplit k 2 1). set (km := KSplit kt 2 1).
  assert (B : forall a, In a (flat_map (fun t => tree_draws (KSplit km (1 + Z.of_nat n) (1 + Z.of_nat t))) (seq 0 n)) ->
    exists t, (t < n)%nat /\ derived (KSplit km (1 + Z.of_nat n) (1 + Z.of_nat t)) (draw_key a)).
  { intros a Ha. apply in_flat_map in Ha as (t & Ht & Ha). apply in_seq in Ht. exists t. split; [lia |].
    pose proof (tree_draws_below (KSplit km (1 + Z.of_nat n) (1 + Z.of_nat t))) as B.
    unfold all_below in B. rewrite Forall_forall in B. auto. }
  apply all_apart_app.
  - unfold all_apart.
    repeat (apply FOP_cons || apply FOP_nil || apply Forall_cons || apply Forall_nil); cbn [draw_key].
    + eapply apart_below; [apply (apart_siblings k 2 0 1); lia | below | unfold kt; below].
    + eapply apart_below; [apply (apart_siblings k 2 0 1); lia | below | unfold km, kt; below].
    + eapply apart_below; [apply (apart_siblings kt 2 0 1); lia | below | unfold km; below].
  - apply (all_apart_blocks (fun t => KSplit km (1 + Z.of_nat n) (1 + Z.of_nat t))).
    + intros i _. split; [apply tree_draws_apart | apply tree_draws_below].
    + intros i j H. apply apart_siblings. lia.
  - intros a b Ha Hb. destruct (B b Hb) as (t & Ht & D).
    destruct Ha as [<- | [<- | [<- | []]]]; cbn [draw_key].
    + eapply apart_below; [apply (apart_siblings k 2 0 1); lia | below |].
      eapply derived_trans; [| exact D]. unfold km, kt. below.
    + eapply apart_below; [apply (apart_siblings kt 2 0 1); lia | below |].
      eapply derived_trans; [| exact D]. unfold km. below.
    + eapply apart_below; [| apply derived_same | exact D]. apply apart_siblings. lia.
Qed.

Lemma chain_key_below k i j : (i <= j)%nat -> derived (chain_key k i) (chain_key k j).
Proof. induction 1; cbn [chain_key]; below. assumption. Qed.

Lemma run_draws_apart ntree k n : all_apart (run_draws ntree k n).
Proof.
  apply (all_apart_blocks (fun i => KSplit (chain_key k i) 2 1)).
  - intros i _. split; [apply step_draws_apart | apply step_draws_below].
  - intros i j H. apply apart_below with (KSplit (chain_key k i) 2 1) (KSplit (chain_key k i) 2 0).
    + apply apart_siblings. lia.
    + below.
    + apply derived_split. apply (chain_key_below k (S i) j). lia.
Qed.

(** ** The step depends on the generator only through these draws *)

Section Agree.
  Context {fo : fops} {zo : zoob} {foo : foob fo}.
  Variables g g' : rng fo.
  Notation same := (same_draw g g').

  Lemma same_tree b t k : (forall d, In d (tree_draws k) -> same d) ->
    sample_moves_tree (g := g) b t k = sample_moves_tree (g := g') b t k.
  Proof.
    intros H.
    pose proof (H (UniformTo _) (or_introl eq_refl)) as H1.
    pose proof (H (Integer _) (or_intror (or_introl eq_refl))) as H2.
    pose proof (H (Integer _) (or_intror (or_intror (or_introl eq_refl)))) as H3.
    pose proof (H (Integer _) (or_intror (or_intror (or_intror (or_introl eq_refl))))) as H4.
    cbn [same_draw] in H1, H2, H3, H4. clear H.
    unfold sample_moves_tree, grow_move, prune_move, choose_leaf, choose_variable, choose_split,
      choose_leaf_parent, categorical, randint_exclude, randint_masked, randint.
    cbv zeta. rewrite H1, H2, H3, H4. reflexivity.
  Qed.

  Lemma same_step b k : (forall d, In d (step_draws (length (trees b)) k) -> same d) ->
    step (g := g) b k = step (g := g') b k.
  Proof.
    intros H.
    assert (HG : same (Gamma (KSplit k 2 0))) by (apply H; now left).
    assert (HN : same (Normal (KSplit (KSplit k 2 1) 2 0))) by (apply H; right; now left).
    assert (HU : same (Uniform (KSplit (KSplit (KSplit k 2 1) 2 1) (1 + Z.of_nat (length (trees b))) 0)))
      by (apply H; right; right; now left).
    cbn [same_draw] in HG, HN, HU.
    assert (EM : sample_moves (g := g) b (KSplit (KSplit k 2 1) 2 1) =
                 sample_moves (g := g') b (KSplit (KSplit k 2 1) 2 1)).
    { unfold sample_moves. apply map_ext_in. intros [i t] Hi.
      unfold enumerate in Hi. apply in_combine_l in Hi. unfold arange in Hi.
      apply in_map_iff in Hi as (j & <- & Hj). apply in_seq in Hj. unfold zlen in *.
      rewrite !HU. rewrite same_tree; [reflexivity |].
      intros d Hd. apply H. unfold step_draws. apply in_or_app. right.
      apply in_flat_map. exists j. split; [apply in_seq; lia | exact Hd]. }
    assert (EP : forall moves, parallel_stage (g := g) b moves (KSplit (KSplit k 2 1) 2 0) =
                 parallel_stage (g := g') b moves (KSplit (KSplit k 2 1) 2 0)).
    { intros moves. unfold parallel_stage, parallel_stage_tree, precompute_leaf_terms.
      revert moves. generalize (enumerate (trees b)) as l.
      induction l as [| [i t] l IH]; intros [| m moves]; auto. cbn [map2]. rewrite IH. f_equal.
      destruct (compute_count_trees _ _ _) as [ct c]. f_equal. f_equal. f_equal.
      apply map_ext. intros j. apply HN. }
    unfold step, sample_trees, accept_moves_and_sample_leaves. cbv zeta.
    rewrite EM, EP. destruct (sequential_stage _ _ _ _ _) as [r aa].
    unfold sample_sigma. cbv zeta. now rewrite HG.
  Qed.

  Lemma step_length b k : length (trees (step (g := g) b k)) = length (trees b).
  Proof.
    unfold step, sample_trees, accept_moves_and_sample_leaves, sample_sigma. cbv zeta.
    set (ss := parallel_stage _ _ _).
    assert (Ls : length ss = length (trees b)).
    { unfold ss, parallel_stage, sample_moves, enumerate, arange, zlen.
      rewrite length_map2, map_length, !combine_length, map_length, seq_length. lia. }
    assert (La : forall rbs mp ef r, length (snd (sequential_stage rbs mp ef r ss)) = length ss).
    { clear. induction ss as [| s ss IH]; intros; auto. cbn [sequential_stage].
      destruct (accept_move_and_sample_leaves _ _ _ _ _) as [r1 a].
      specialize (IH rbs mp ef r1). destruct (sequential_stage rbs mp ef r1 ss). cbn [snd length] in *. lia. }
    specialize (La (resid_batch_size b) (min_points_per_leaf b) (exp_factor (zlen (trees b)) (sigma2 b)) (resid b)).
    destruct (sequential_stage _ _ _ _ ss) as [r aa]. cbn [snd] in La.
    cbn [set_sigma2 trees]. rewrite length_map2. lia.
  Qed.

  Lemma chain_length b k n : length (trees (chain (g := g) b k n)) = length (trees b).
  Proof. induction n; cbn [chain]; auto. now rewrite step_length. Qed.

  Lemma same_chain b k n : (forall d, In d (run_draws (length (trees b)) k n) -> same d) ->
    forall i, (i <= n)%nat -> chain (g := g) b k i = chain (g := g') b k i.
  Proof.
    intros H i. induction i as [| i IH]; intros Hi; auto. cbn [chain].
    rewrite <- IH by lia. apply same_step. rewrite chain_length.
    intros d Hd. apply H. apply in_flat_map. exists i. split; [apply in_seq; lia | auto].
  Qed.
End Agree.

Section Props.
  Context {fo : fops} {zo : zoob} {foo : foob fo}.

  (** C34. A run of n_burn + n_save * n_skip iterations makes the draws listed
      by [run_draws]: no two draws use the same key, nor keys of which one is
      derived from the other; and two generators that agree on those draws
      give exactly the same run. *)
  Theorem C34_keys_not_reused : forall ntree k n i j d d',
    nth_error (run_draws ntree k n) i = Some d ->
    nth_error (run_draws ntree k n) j = Some d' -> i <> j ->
    draw_key d <> draw_key d' /\ ~ derived (draw_key d) (draw_key d').
  Proof.
    intros ntree k n i j d d' Hi Hj Ne.
    assert (A : apart (draw_key d) (draw_key d')).
    { pose proof (run_draws_apart ntree k n) as A. revert i j Hi Hj Ne.
      unfold all_apart in A.
      induction A as [| a l Ha A IH]; intros i j Hi Hj Ne; [now destruct i |].
      destruct i as [| i], j as [| j]; cbn in Hi, Hj; try congruence.
      - injection Hi as <-. rewrite Forall_forall in Ha. apply Ha. eapply nth_error_In; eauto.
      - injection Hj as <-. rewrite Forall_forall in Ha. apply apart_sym, Ha. eapply nth_error_In; eauto.
      - eapply IH; eauto. }
    destruct A as [A1 A2]. split; auto. intros E. apply A1. rewrite E. constructor.
  Qed.

  Theorem C34_only_these_draws : forall (g g' : rng fo) E (callback : callback_args -> E) nb ns nk b k,
    0 <= nb -> 0 <= ns -> 0 <= nk ->
    (forall d, In d (run_draws (length (trees b)) k (Z.to_nat (nb + ns * nk))) -> same_draw g g' d) ->
    run_mcmc (g := g) nb ns nk callback b k = run_mcmc (g := g') nb ns nk callback b k.
  Proof.
    intros g g' E callback nb ns nk b k Hb Hs Hk H.
    destruct (run_value (g := g) nb ns nk Hb Hs Hk callback b k) as (bt & mt & -> & -> & ->).
    destruct (run_value (g := g') nb ns nk Hb Hs Hk callback b k) as (bt & mt & -> & -> & ->).
    pose proof (same_chain g g' b k _ H) as C.
    assert (Hn : (Z.to_nat nb <= Z.to_nat (nb + ns * nk))%nat) by nia.
    f_equal; [f_equal; [f_equal |] |].
    - apply C. lia.
    - destruct (0 <? nb); auto. f_equal. apply map_ext_in. intros i Hi. unfold burnin_states in Hi.
      apply in_seq in Hi. f_equal. apply C. lia.
    - destruct (0 <? ns); [| f_equal; apply C; lia]. f_equal. apply map_ext_in. intros i Hi.
      unfold main_states in Hi. apply in_map_iff in Hi as (j & <- & Hj). apply in_seq in Hj.
      f_equal. apply C. rewrite Z2Nat.inj_add, Z2Nat.inj_mul by nia. nia.
    - apply map_ext_in. intros i Hi. apply in_seq in Hi. unfold expected_call.
      rewrite (C (S i)) by lia. reflexivity.
  Qed.
End Props.

(** A step with two trees makes 11 draws. *)
Example draws_example :
  length (run_draws 2 (KRoot 0) 3) = 33%nat /\
  nth_error (run_draws 2 (KRoot 0) 3) 11 = Some (Gamma (KSplit (KSplit (KSplit (KRoot 0) 2 0) 2 1) 2 0)).
Proof. split; reflexivity. Qed.

Print Assumptions C34_keys_not_reused.
Print Assumptions C34_only_these_draws.
