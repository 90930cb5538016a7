(** Batch sizes do not matter: C23. *)
From Coq Require Import ZArith List Bool Lia Reals.
From Verif Require Import Base LemBase ModelJaxext ModelGrove ModelStep SpecTree SpecForest SpecRun Laws
  ProofAggregate ProofLeaf ProofDraw SpecLoop SpecSame Examples ExampleRun ExampleReal.
Import ListNotations.
Open Scope Z_scope.

Section Any.
  Context {fo : fops} {zo : zoob} {foo : foob fo}.

  Definition batches (b : bart) (rb cb : option Z) : bart :=
    {| trees := trees b; resid := resid b; sigma2 := sigma2 b;
       grow_prop_count := grow_prop_count b; grow_acc_count := grow_acc_count b;
       prune_prop_count := prune_prop_count b; prune_acc_count := prune_acc_count b;
       p_nonterminal := p_nonterminal b; p_propose_grow := p_propose_grow b;
       sigma2_alpha := sigma2_alpha b; sigma2_beta := sigma2_beta b;
       max_split := max_split b; split_bits := split_bits b; y := y b; X := X b;
       min_points_per_leaf := min_points_per_leaf b;
       resid_batch_size := rb; count_batch_size := cb;
       ratios := ratios b |}.

  Lemma same_batches b rb cb : same_sample b (batches b rb cb).
  Proof. repeat split. Qed.

  Lemma init_batches s rb cb : init_of (with_batches s rb cb) = batches (init_of s) rb cb.
  Proof. reflexivity. Qed.

  (** *** Counts, for any size *)
  Lemma count_none idx size bs : valid_batch bs ->
    count_datapoints_per_leaf idx size bs = count_datapoints_per_leaf idx size None.
  Proof.
    intros H. unfold count_datapoints_per_leaf. destruct bs as [bs |]; auto.
    rewrite aggregate_batched32, aggregate_scatter32. f_equal.
    apply aggregate_batched_eq.
    - intros; lia.
    - intros; lia.
    - intros; lia.
    - now apply H.
    - now rewrite zlen_map.
  Qed.

  Context {g : rng fo}.

  Lemma parallel_batches b rb cb moves k :
    valid_batch cb -> valid_batch (count_batch_size b) ->
    parallel_stage (batches b rb cb) moves k = parallel_stage b moves k.
  Proof.
    intros Hc Hc'. unfold parallel_stage. cbn [batches trees].
    generalize (enumerate (trees b)) as l. intros l. revert moves.
    induction l as [| it l IH]; intros [| m moves]; auto. cbn [map2]. rewrite IH. f_equal.
    unfold parallel_stage_tree. cbn [batches trees count_batch_size X min_points_per_leaf sigma2].
    unfold compute_count_trees. rewrite (count_none _ _ cb), (count_none _ _ (count_batch_size b)); auto.
  Qed.

  (** If the sequential stage does not depend on the batch size, nor does the
      step. *)
  Lemma step_batches b rb cb k :
    valid_batch cb -> valid_batch (count_batch_size b) ->
    (forall moves k, sequential_stage rb (min_points_per_leaf b) (exp_factor (zlen (trees b)) (sigma2 b)) (resid b)
       (parallel_stage b moves k) =
     sequential_stage (resid_batch_size b) (min_points_per_leaf b) (exp_factor (zlen (trees b)) (sigma2 b)) (resid b)
       (parallel_stage b moves k)) ->
    step (batches b rb cb) k = batches (step b k) rb cb.
  Proof.
    intros Hc Hc' Hs. unfold step, sample_trees. cbv zeta.
    change (sample_moves (batches b rb cb)) with (sample_moves b).
    unfold accept_moves_and_sample_leaves. cbv zeta. rewrite parallel_batches by auto.
    cbn [batches resid_batch_size min_points_per_leaf trees sigma2 resid]. rewrite Hs.
    destruct (sequential_stage _ _ _ _ _) as [r aa]. reflexivity.
  Qed.

  Lemma step_count_batch b k : count_batch_size (step b k) = count_batch_size b.
  Proof.
    unfold step, sample_trees, accept_moves_and_sample_leaves. cbv zeta.
    destruct (sequential_stage _ _ _ _ _) as [r aa]. reflexivity.
  Qed.
  Lemma step_resid_batch b k : resid_batch_size (step b k) = resid_batch_size b.
  Proof.
    unfold step, sample_trees, accept_moves_and_sample_leaves. cbv zeta.
    destruct (sequential_stage _ _ _ _ _) as [r aa]. reflexivity.
  Qed.
  Lemma chain_count_batch b k n : count_batch_size (chain b k n) = count_batch_size b.
  Proof. induction n; cbn [chain]; auto. now rewrite step_count_batch. Qed.
  Lemma chain_resid_batch b k n : resid_batch_size (chain b k n) = resid_batch_size b.
  Proof. induction n; cbn [chain]; auto. now rewrite step_resid_batch. Qed.

  (** C23. Whatever the float arithmetic, the chain does not depend on the
      batch size used to count the points in the leaves. *)
  Theorem C23_count_batch_size : forall s cb k n,
    valid_batch (i_count_batch s) -> valid_batch cb ->
    same_sample (chain (init_of s) k n) (chain (init_of (with_batches s (i_resid_batch s) cb)) k n).
  Proof.
    intros s cb k n Hs Hc.
    assert (E : chain (init_of (with_batches s (i_resid_batch s) cb)) k n =
                batches (chain (init_of s) k n) (i_resid_batch s) cb).
    { rewrite init_batches. induction n as [| n IH]; [reflexivity |]. cbn [chain]. rewrite IH.
      apply step_batches; auto.
      - now rewrite chain_count_batch.
      - intros. now rewrite chain_resid_batch. }
    rewrite E. apply same_batches.
  Qed.

  (** ** Sizes *)
  Definition sized (b : bart) : Prop :=
    zlen (resid b) = zlen (X b) /\ forall t, In t (trees b) -> zlen (t_idx t) = zlen (X b).

  Lemma parallel_sized b moves k s : sized b -> In s (parallel_stage b moves k) ->
    zlen (t_idx (s_tree s)) = zlen (X b).
  Proof.
    intros [_ H] Hs. unfold parallel_stage in Hs.
    assert (HE : forall it, In it (enumerate (trees b)) -> In (snd it) (trees b)).
    { intros [i t] Hi. unfold enumerate in Hi. now apply in_combine_r in Hi. }
    revert moves Hs HE. generalize (enumerate (trees b)) as l. intros l.
    induction l as [| it l IH]; intros [| m moves] Hs HE; cbn [map2 In] in Hs; try contradiction.
    destruct Hs as [<- | Hs].
    - unfold parallel_stage_tree. destruct (compute_count_trees _ _ _) as [ct c].
      cbn [s_tree t_idx]. unfold apply_grow_to_indices. rewrite zlen_map2, zlen_map.
      rewrite H by (apply HE; now left). lia.
    - apply (IH moves); auto. intros it' Hi. apply HE. now right.
  Qed.

  Lemma accept_sized rb mp ef r s r' a n :
    zlen r = n -> zlen (t_idx (s_tree s)) = n ->
    accept_move_and_sample_leaves rb mp ef r s = (r', a) -> zlen r' = n.
  Proof.
    intros Hr Hi E. unfold accept_move_and_sample_leaves in E. cbv zeta in E. injection E as <- _.
    rewrite zlen_map2, zlen_map. lia.
  Qed.

  Lemma sequential_sized rb mp ef n ss : forall r,
    zlen r = n -> (forall s, In s ss -> zlen (t_idx (s_tree s)) = n) ->
    zlen (fst (sequential_stage rb mp ef r ss)) = n.
  Proof.
    induction ss as [| s ss IH]; intros r Hr Hs; auto. cbn [sequential_stage].
    destruct (accept_move_and_sample_leaves rb mp ef r s) as [r1 a] eqn:E.
    specialize (IH r1 (accept_sized _ _ _ _ _ _ _ _ Hr (Hs s (or_introl eq_refl)) E)
      (fun s' H => Hs s' (or_intror H))).
    destruct (sequential_stage rb mp ef r1 ss). exact IH.
  Qed.

  Lemma step_sized b k : sized b -> sized (step b k).
  Proof.
    intros S. unfold step, sample_trees, accept_moves_and_sample_leaves. cbv zeta.
    set (ss := parallel_stage _ _ _).
    pose proof (sequential_sized (resid_batch_size b) (min_points_per_leaf b)
      (exp_factor (zlen (trees b)) (sigma2 b)) _ ss (resid b) (proj1 S)
      (fun s H => parallel_sized b _ _ s S H)) as HR.
    destruct (sequential_stage _ _ _ _ ss) as [r aa]. cbn [fst] in HR.
    unfold sample_sigma, set_sigma2, sized. cbn [resid X trees]. split; auto.
    intros t Ht.
    assert (A : forall ss aa, In t (map2 (final_tree (split_bits b)) ss aa) ->
      exists s a, In s ss /\ t = final_tree (split_bits b) s a).
    { clear. induction ss as [| s ss IH]; intros [| a aa] H; cbn [map2 In] in H; try contradiction.
      destruct H as [<- | H]; [exists s, a; split; auto; now left |].
      destruct (IH aa H) as (s' & a' & H1 & H2). exists s', a'. split; auto. now right. }
    destruct (A ss aa Ht) as (s & a & Hs & ->).
    unfold final_tree, apply_moves_to_leaf_indices. cbn [t_idx]. rewrite zlen_map.
    eapply parallel_sized; eauto.
  Qed.

  Lemma init_sized s : zlen (i_X s) = zlen (i_y s) -> sized (init_of s).
  Proof.
    intros E. unfold sized, init_of, init. cbn [resid X trees]. split; [easy |].
    intros t Ht. apply In_full in Ht. subst t. cbn [t_idx]. rewrite zlen_full; auto.
    unfold zlen. lia.
  Qed.

  Lemma chain_sized s k n : zlen (i_X s) = zlen (i_y s) -> sized (chain (init_of s) k n).
  Proof. intros H. induction n; cbn [chain]; auto using init_sized, step_sized. Qed.
End Any.

(** ** Real arithmetic *)
Section Real.
  Context {zo : zoob} {foo : foob rops} {g : rng rops}.

  Lemma sum_none (r : list R) idx size bs : valid_batch bs -> zlen r = zlen idx ->
    sum_resid (fo := rops) r idx size bs = sum_resid (fo := rops) r idx size None.
  Proof.
    intros H L. unfold sum_resid. destruct bs as [bs |]; auto.
    apply aggregate_batched_eq; cbn [fadd f0 rops].
    - intros. match goal with |- @eq _ ?a ?b => change (@eq R a b) end. ring.
    - intros. match goal with |- @eq _ ?a ?b => change (@eq R a b) end. ring.
    - intros. match goal with |- @eq _ ?a ?b => change (@eq R a b) end. ring.
    - now apply H.
    - exact L.
  Qed.

  Lemma accept_none rb mp ef (r : list R) (s : @stage1 rops) : valid_batch rb ->
    zlen r = zlen (t_idx (s_tree s)) ->
    accept_move_and_sample_leaves rb mp ef r s = accept_move_and_sample_leaves None mp ef r s.
  Proof.
    intros H L. unfold accept_move_and_sample_leaves. cbv zeta. now rewrite sum_none.
  Qed.

  Lemma sequential_none rb mp ef n (ss : list (@stage1 rops)) : valid_batch rb ->
    forall r : list R, zlen r = n -> (forall s, In s ss -> zlen (t_idx (s_tree s)) = n) ->
    sequential_stage rb mp ef r ss = sequential_stage None mp ef r ss.
  Proof.
    intros Hb. induction ss as [| s ss IH]; intros r Hr Hs; auto. cbn [sequential_stage].
    assert (Hi : zlen (t_idx (s_tree s)) = n) by (apply Hs; now left).
    rewrite accept_none by (auto; congruence).
    destruct (accept_move_and_sample_leaves None mp ef r s) as [r1 a] eqn:E.
    rewrite IH; auto.
    - apply (accept_sized (fo := rops) _ _ _ _ _ _ _ _ Hr Hi E).
    - intros s' H. apply Hs. now right.
  Qed.

  (** C23. In real arithmetic the chain does not depend on either batch
      size. *)
  Theorem C23_batch_sizes : forall (s : @settings rops) rb cb k n,
    zlen (i_X s) = zlen (i_y s) ->
    valid_batch (i_resid_batch s) -> valid_batch (i_count_batch s) -> valid_batch rb -> valid_batch cb ->
    same_sample (chain (init_of s) k n) (chain (init_of (with_batches s rb cb)) k n).
  Proof.
    intros s rb cb k n HL Hr Hc Hr' Hc'.
    assert (E : chain (init_of (with_batches s rb cb)) k n = batches (chain (init_of s) k n) rb cb).
    { rewrite init_batches. induction n as [| n IH]; [reflexivity |]. cbn [chain]. rewrite IH.
      pose proof (chain_sized s k n HL) as SZ.
      apply step_batches; auto.
      - now rewrite chain_count_batch.
      - intros moves k0.
        assert (HN : forall b0, valid_batch b0 ->
          sequential_stage b0 (min_points_per_leaf (chain (init_of s) k n))
            (exp_factor (zlen (trees (chain (init_of s) k n))) (sigma2 (chain (init_of s) k n)))
            (resid (chain (init_of s) k n)) (parallel_stage (chain (init_of s) k n) moves k0) =
          sequential_stage None (min_points_per_leaf (chain (init_of s) k n))
            (exp_factor (zlen (trees (chain (init_of s) k n))) (sigma2 (chain (init_of s) k n)))
            (resid (chain (init_of s) k n)) (parallel_stage (chain (init_of s) k n) moves k0)).
        { intros b0 Hb0. apply (sequential_none _ _ _ (zlen (X (chain (init_of s) k n)))); auto.
          - apply SZ.
          - intros s0 H. eapply parallel_sized; eauto. }
        rewrite (HN rb Hr'). symmetry. apply HN. now rewrite chain_resid_batch. }
    rewrite E. apply same_batches.
  Qed.
End Real.

(** The two aggregations themselves: entry [i] of the result is the number of
    points (the sum of the values of the points) whose index is [i], for every
    batch size. *)
Theorem C23_counts : forall idx size bs i, valid_batch bs -> zlen idx < 2 ^ 32 ->
  (forall j, In j idx -> 0 <= j) -> 0 <= i < size ->
  nth (Z.to_nat i) (count_datapoints_per_leaf idx size bs) 0 =
    Z.of_nat (length (filter (fun j => j =? i) idx)).
Proof.
  intros idx size bs i Hb Hn Hp Hi. fold (zget 0 (count_datapoints_per_leaf idx size bs) i).
  rewrite count_none by auto.
  unfold count_datapoints_per_leaf. rewrite aggregate_scatter32.
  assert (L : zlen (aggregate_scatter Z.add 0 (map (fun _ : Z => 1) idx) idx size) = size)
    by (apply zlen_aggregate_scatter; lia).
  rewrite (zget_map _ _ _ 0) by (rewrite L; lia).
  rewrite aggregate_scatter_sum; try (intros; lia); auto.
  assert (E : sum_at Z.add 0 idx (map (fun _ => 1) idx) i = Z.of_nat (length (filter (fun j => j =? i) idx))).
  { clear. induction idx as [| j idx IH]; auto. cbn [map sum_at filter].
    rewrite IH. destruct (j =? i); cbn [length]; lia. }
  rewrite E. unfold wrap. apply Z.mod_small. split; [lia |].
  apply Z.le_lt_trans with (zlen idx); auto. unfold zlen. apply inj_le.
  clear. induction idx as [| j idx IH]; cbn [filter length]; auto. destruct (j =? i); cbn [length]; lia.
Qed.

(** An instance of the hypotheses, and the common number of accepted moves. *)
Example batch_example :
  zlen (i_X ex_settings) = zlen (i_y ex_settings) /\
  valid_batch (i_resid_batch ex_settings) /\ valid_batch (i_count_batch ex_settings) /\
  valid_batch (Some 4) /\
  map (fun cb => grow_acc_count (chain (zo := zclip) (foo := xclip) (g := xrng)
    (init_of (foo := xclip) (with_batches ex_settings (Some 2) cb)) (KRoot 0) 5)) [None; Some 1; Some 4] = [1; 1; 1].
Proof.
  repeat split; try (intros k H; injection H as <-; lia); try (intros k H; discriminate H).
Qed.

Print Assumptions C23_count_batch_size.
Print Assumptions C23_batch_sizes.
Print Assumptions C23_counts.
