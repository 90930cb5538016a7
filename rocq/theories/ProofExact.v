(** Whole steps in exact arithmetic: residuals and leaf values. *)
From Coq Require Import ZArith List Bool Lia Reals Lra.
From Verif Require Import Base LemBase ModelJaxext ModelGrove ModelStep SpecTree
  SpecSampling SpecRange SpecForest SpecRun Laws SpecPosterior ProofTree ProofSampling
  ProofCategorical ProofRange ProofAggregate ProofRoute ProofMoves ProofStep ProofRun ProofForest
  ProofLeaf ProofNormal ProofDraw SpecExact.
Import ListNotations.
Open Scope Z_scope.

Lemma rsum_cons : forall x l, rsum (x :: l) = (x + rsum l)%R.
Proof. reflexivity. Qed.
Lemma rsum_app : forall l l', rsum (l ++ l') = (rsum l + rsum l')%R.
Proof.
  induction l; intros; cbn [app]; rewrite ?rsum_cons, ?IHl; [| lra].
  change (rsum []) with 0%R. lra.
Qed.
Lemma rsum_map_minus : forall A (f h : A -> R) l,
  rsum (map (fun x => f x - h x)%R l) = (rsum (map f l) - rsum (map h l))%R.
Proof. induction l; cbn [map]; rewrite ?rsum_cons, ?IHl; [| lra].
  change (rsum []) with 0%R. lra. Qed.

Section Exact.
  Context {zo : zoob} {foo : foob rops}.

  Definition tval (t : @tree rops) (j : Z) : R := zget 0%R (t_leaf t) (zget 0 (t_idx t) j).

  Lemma tval_predict : forall b t j, setup_ok b -> tree_inv b t -> 0 <= j < zlen (X b) ->
    tval t j = predict (bd b) t (gather zmode (zget [] (X b) j)).
  Proof.
    intros b t j SO TI Hj. unfold tval, predict. rewrite (ti_idx _ _ TI).
    rewrite (zget_map _ _ _ []) by auto. pose proof (so_d _ SO) as Hd.
    set (x := zget [] (X b) j).
    rewrite <- (eval_tree (foo := foo) (bd b) (t_leaf t, t_var t, t_split t) x).
    - cbn [fst snd]. symmetry. apply gather_in.
      pose proof (traverse_bounds (bd b) x (t_var t) (t_split t) ltac:(lia) (ti_var _ _ TI) (ti_split _ _ TI)).
      pose proof (ti_leaf _ _ TI). cbn [F rops] in *. lia.
    - lia.
    - repeat split; apply TI.
  Qed.

  Section OneStep.
    Context {g : rng rops} {rl : rlaws g}.
    Variables (b : @bart rops) (km ka : key).
    Hypothesis SO : setup_ok b.
    Let stg := stage_of b km ka.
    Let seq := sequential_stage (resid_batch_size b) (min_points_per_leaf b) (ef_of b).

    Lemma seq_app : forall l1 l2 r r' aa, seq r (l1 ++ l2) = (r', aa) ->
      exists r1 a1 a2, seq r l1 = (r1, a1) /\ seq r1 l2 = (r', a2) /\ aa = a1 ++ a2 /\
        length a1 = length l1.
    Proof.
      unfold seq. induction l1 as [| s l1 IH]; intros l2 r r' aa E; cbn [app sequential_stage] in *.
      - exists r, [], aa. auto.
      - destruct (accept_move_and_sample_leaves _ _ _ r s) as [r1 a].
        destruct (sequential_stage _ _ _ r1 (l1 ++ l2)) as [r2 rest] eqn:Es. injection E as <- <-.
        destruct (IH _ _ _ _ Es) as (r3 & a1 & a2 & E1 & E2 & E3 & E4).
        exists r3, (a :: a1), a2. rewrite E1. repeat split; auto; [now rewrite E3 | cbn; lia].
    Qed.

    Definition tree_change (ita : Z * tree * stage2) (j : Z) : R :=
      (tval (snd (fst ita)) j - tval (new_tree b km ka ita) j)%R.

    Lemma seq_resid : forall l r r',
      (forall ita, In ita l -> tree_inv b (snd (fst ita))) ->
      seq r (map (fun ita => stg (fst ita)) l) = (r', map snd l) ->
      zlen r = zlen (X b) ->
      zlen r' = zlen (X b) /\
      forall j, 0 <= j < zlen (X b) ->
        zget 0%R r' j = (zget 0%R r j + rsum (map (fun ita => tree_change ita j) l))%R.
    Proof.
      unfold seq. induction l as [| [it a] l IH]; intros r r' TI E Hr; cbn [map sequential_stage] in E.
      - injection E as <-. split; auto. intros. cbn. lra.
      - destruct (accept_move_and_sample_leaves _ _ _ r _) as [r1 a'] eqn:Ea.
        destruct (sequential_stage _ _ _ r1 _) as [r2 rest] eqn:Es.
        injection E as <- Ha Hrest. cbn [fst snd] in Ha, Ea. subst a' rest.
        assert (T : tree_inv b (snd it)) by (apply (TI (it, a)); now left).
        destruct (move_of_cases b km it SO T) as (H1 & H2 & H3 & H4 & _).
        destruct (acc_lens b SO (snd it) T (move_of b km it) H1 H2 H3 H4 ka (fst it) g r r1 a _ Ea)
          as [_ L].
        destruct (IH r1 r2) as [L2 H].
        { intros; apply TI; now right. }
        { exact Es. }
        { lia. }
        split; auto. intros j Hj. rewrite H by auto. cbn [map]. rewrite rsum_cons.
        pose proof (resid_update b SO (snd it) T (move_of b km it) H1 H2 H3 H4 ka (fst it) g r r1 a _ Ea j Hj Hr)
          as RU.
        change (zget 0%R r1 j) with (zget (@f0 rops) r1 j). rewrite RU.
        unfold tree_change, tval, new_tree. cbn [fst snd rops fadd fsub f0 F]. unfold stage_of. lra.
    Qed.
  End OneStep.

  Lemma map_fst_l : forall (b : @bart rops) (l : list (Z * @tree rops * @stage2 rops)),
    map fst l = enumerate (trees b) -> map (fun ita => snd (fst ita)) l = trees b.
  Proof.
    intros b l M. rewrite <- (map_snd_enumerate _ (trees b)), <- M. now rewrite map_map.
  Qed.

  Definition forest_at (ts : list (@tree rops)) (j : Z) : R := rsum (map (fun t => tval t j) ts).

  (** C07, on the cached indices *)
  Lemma resid_inv : forall s b, settings_ok s -> reached s b ->
    forall j, 0 <= j < zlen (X b) ->
      zget 0%R (resid b) j = (zget 0%R (y b) j - forest_at (trees b) j)%R.
  Proof.
    intros s b OK R. induction R as [| b g k rl R IH].
    - intros j Hj. cbn [init_of init resid y trees X] in *. unfold forest_at, full.
      match goal with |- context [repeat ?t _] => set (t0 := t) end.
      assert (E : tval t0 j = 0%R).
      { unfold tval, t0. cbn [t_leaf t_idx]. unfold make_tree. apply zget_full_same. }
      assert (Z0 : forall n, rsum (map (fun t => tval t j) (repeat t0 n)) = 0%R).
      { induction n; cbn [repeat map]; rewrite ?rsum_cons, ?IHn, ?E; [reflexivity | lra]. }
      rewrite Z0. lra.
    - intros j Hj. pose proof (reached_inv s OK b R) as I.
      destruct (step_fields b k) as (_ & _ & _ & _ & _ & _ & EY & EX & _ & _ & _ & ET & ER & _).
      destruct (sample_trees_list b (KSplit k 2 1)) as (l & M & A & SQ & T & _). cbv zeta in *.
      rewrite EX in Hj. rewrite EY, ET, ER, T.
      destruct (seq_resid b (KSplit (KSplit k 2 1) 2 1) (KSplit (KSplit k 2 1) 2 0) (in_setup _ I) l (resid b)
        (resid (sample_trees b (KSplit k 2 1)))) as [_ H].
      + intros [it a] Hin. cbn [fst]. apply (in_trees _ I). eapply In_fst_enum; eauto.
      + symmetry. exact SQ.
      + apply I.
      + rewrite H by auto. rewrite IH by auto. unfold tree_change, forest_at.
        rewrite <- (map_fst_l b l M) at 1.
        rewrite (rsum_map_minus _ (fun ita => tval (snd (fst ita)) j)). rewrite !map_map. lra.
  Qed.

  (** the acceptance stage of one tree of a step, with the residuals it gets *)
  Lemma step_tree : forall s b, settings_ok s -> reached s b ->
    forall (g : rng rops) (rl : rlaws g) k m t t',
    nth_error (trees b) m = Some t -> nth_error (trees (step b k)) m = Some t' ->
    let km := KSplit (KSplit k 2 1) 2 1 in
    let ka := KSplit (KSplit k 2 1) 2 0 in
    let it := (Z.of_nat m, t) in
    exists r1 r2 a,
      accept_move_and_sample_leaves (resid_batch_size b) (min_points_per_leaf b) (ef_of b)
        r1 (stage_of b km ka it) = (r2, a) /\
      t' = new_tree b km ka (it, a) /\
      zlen r1 = zlen (X b) /\
      (forall l, ratios (step b k) = Some l -> nth_error l m = Some (a_ratios a)) /\
      forall j, 0 <= j < zlen (X b) ->
        (zget 0%R r1 j + tval t j =
         zget 0%R (y b) j - forest_at (firstn m (trees (step b k)) ++ skipn (S m) (trees b)) j)%R.
  Proof.
    intros s b OK R g rl k m t t' Ht Ht' km ka it. pose proof (reached_inv s OK b R) as I.
    destruct (step_fields b k) as (_ & _ & _ & _ & _ & _ & EY & EX & _ & _ & _ & ET & ER & _).
    destruct (sample_trees_list b (KSplit k 2 1)) as (l & M & A & SQ & T & _ & _ & _ & _ & RT). cbv zeta in *.
    fold km ka in A, SQ, T. rewrite ET, T in Ht'. rewrite ET, T.
    apply nth_error_map_inv in Ht'. destruct Ht' as ([it0 a] & Hl & Et').
    assert (it0 = it).
    { pose proof (nth_error_enumerate _ _ _ _ Ht) as E. rewrite <- M in E.
      rewrite nth_error_map, Hl in E. cbn in E. now injection E. }
    subst it0. destruct (nth_error_split _ _ Hl) as (l1 & l2 & El & Lm).
    rewrite El in SQ. rewrite !map_app in SQ. symmetry in SQ.
    apply seq_app in SQ. destruct SQ as (r1 & a1 & a2 & S1 & S2 & Ea & La).
    rewrite map_length in La.
    assert (a1 = map snd l1).
    { cbn [map] in Ea. apply (f_equal (firstn (length l1))) in Ea.
      rewrite !firstn_app, La, map_length, Nat.sub_diag in Ea. cbn [firstn] in Ea.
      rewrite !app_nil_r in Ea. rewrite (firstn_all2 a1) in Ea by lia.
      rewrite firstn_all2 in Ea by (rewrite map_length; lia). auto. }
    subst a1. apply app_inv_head in Ea. subst a2.
    assert (TI : forall ita, In ita l -> tree_inv b (snd (fst ita))).
    { intros [it1 a1] Hin. cbn [fst]. apply (in_trees _ I). eapply In_fst_enum; eauto. }
    destruct (seq_resid b km ka (in_setup _ I) l1 (resid b) r1) as [L1 H].
    { intros ita Hin. apply TI. rewrite El. apply in_or_app. now left. }
    { exact S1. }
    { apply I. }
    cbn [map sequential_stage fst] in S2.
    destruct (accept_move_and_sample_leaves _ _ _ r1 _) as [r2 a'] eqn:Eacc.
    destruct (sequential_stage _ _ _ r2 _) as [r3 rest]. injection S2 as _ Ha _. cbn [snd] in Ha. subst a'.
    exists r1, r2, a. split; auto. split; auto. split; auto. split.
    { intros l0 E0. assert (ES : ratios (step b k) = ratios (sample_trees b (KSplit k 2 1))).
      { unfold step. reflexivity. }
      rewrite ES, RT in E0. destruct (ratios b); [| discriminate]. injection E0 as <-.
      rewrite nth_error_map, Hl. reflexivity. }
    intros j Hj. rewrite H by auto. rewrite (resid_inv s b OK R) by auto.
    assert (ETb : trees b = map (fun ita => snd (fst ita)) l1 ++ t :: map (fun ita => snd (fst ita)) l2).
    { rewrite <- (map_fst_l b l M), El, map_app. reflexivity. }
    rewrite El, map_app, firstn_app, map_length, Lm, Nat.sub_diag. cbn [firstn].
    rewrite app_nil_r. rewrite firstn_all2 by (rewrite map_length; lia).
    rewrite ETb. rewrite skipn_app, map_length, Lm.
    rewrite skipn_all2 by (rewrite map_length; lia).
    replace (S m - m)%nat with 1%nat by lia. cbn [skipn app].
    unfold forest_at, tree_change. rewrite !map_app, !rsum_app. cbn [map]. rewrite rsum_cons.
    rewrite (rsum_map_minus _ (fun ita => tval (snd (fst ita)) j)). rewrite !map_map. lra.
  Qed.

  Lemma forest_at_predict : forall b ts j, setup_ok b -> (forall t, In t ts -> tree_inv b t) ->
    0 <= j < zlen (X b) ->
    forest_at ts j = predict_sum (bd b) ts (gather zmode (zget [] (X b) j)).
  Proof.
    intros b ts j SO H Hj. unfold forest_at, predict_sum. f_equal. apply map_ext_in. intros t Ht.
    apply tval_predict; auto.
  Qed.

  Lemma reached_real_reached : forall s b, reached_real s b -> reached s b.
  Proof.
    intros s b H. induction H as [| b g k rg H IH]; [constructor |].
    apply reached_step; auto. now apply real_rng_laws.
  Qed.

  Lemma resid_len : forall s b, settings_ok s -> reached s b -> zlen (resid b) = zlen (y b).
  Proof.
    intros s b OK R. pose proof (in_resid _ (reached_inv s OK b R)).
    destruct (reached_fields s b R) as (EX & EY & _). rewrite EX in H. rewrite EY.
    now rewrite (ok_n _ OK) in H.
  Qed.

  Lemma values_at_spec : forall (d : Z) others var sp i (pts : list (Z -> Z)) (ys : list R),
    values_at (map (fun x => leaf_of (Z.to_nat d - 1) x var sp 1) pts)
      (map2 (fun yv x => yv - predict_sum d others x)%R ys pts) i =
    leaf_residuals d others var sp i (combine pts ys).
  Proof.
    intros d others var sp i. induction pts as [| x pts IH]; intros [| yv ys]; auto.
    cbn [map map2 combine]. rewrite values_at_cons, IH. unfold leaf_residuals. cbn [filter fst].
    destruct (_ =? i); auto.
  Qed.

  Lemma combine_pts : forall {A B C} (h : A -> B) (l : list A) (r : list C),
    combine (map h l) r = map (fun p => (h (fst p), snd p)) (combine l r).
  Proof. induction l; intros [| c r]; cbn; auto. now rewrite IHl. Qed.
End Exact.
