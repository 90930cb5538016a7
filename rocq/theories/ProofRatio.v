(** In exact arithmetic: the transition and prior ratio computed for a
    proposal. One tree. *)
From Coq Require Import ZArith List Bool Lia Reals Lra Permutation.
From Verif Require Import Base LemBase ModelJaxext ModelGrove ModelStep SpecTree
  SpecSampling SpecRange SpecForest SpecRun SpecPosterior SpecProposal SpecMH Laws ProofTree
  ProofSampling ProofCategorical ProofRange ProofAggregate ProofRoute ProofMoves ProofStep ProofRun ProofForest
  ProofDraw ProofGauss ProofProposal ProofTransition.
Import ListNotations.
Open Scope Z_scope.
Ltac Zify.zify_post_hook ::= Z.div_mod_to_equations.

(** What the partial ratio of a move is computed from *)
Section Shape.
  Context {fo : fops} {zo : zoob} {foo : foob fo} {g : rng fo}.

  Definition masked_weights (mask : list bool) (w : list F) : list F :=
    map2 (fun (b : bool) p => if b then p else f0) mask w.

  Lemma grow_shape : forall bits var sp aff ms pnt ppg k,
    let gm := grow_move bits var sp aff ms pnt ppg k in
    g_partial_ratio gm = compute_partial_ratio
      (fdiv (gather fmode (masked_weights (growable_leaves sp aff) ppg) (g_node gm))
            (snd (categorical (KSplit k 3 0) (masked_weights (growable_leaves sp aff) ppg))))
      (count_nonzero (is_leaves_parent (scatter_set sp (g_node gm) 1))) pnt (g_node gm).
  Proof.
    intros. unfold gm, grow_move, choose_leaf, masked_weights.
    destruct (categorical _ _) as [l tot]. reflexivity.
  Qed.

  Lemma prune_shape : forall sp aff pnt ppg k,
    let pm := prune_move sp aff pnt ppg k in
    pr_partial_ratio pm = compute_partial_ratio
      (fdiv (gather fmode ppg (pr_node pm))
         (fsum_where ppg (growable_leaves (scatter_set sp (pr_node pm) 0)
            (match aff with None => None | Some a => Some (scatter_set a (pr_node pm) true) end))))
      (count_nonzero (is_leaves_parent sp)) pnt (pr_node pm).
  Proof. reflexivity. Qed.

  Lemma move_shape : forall b k it, let m := move_of b k it in let t := snd it in
    m_partial_ratio m =
    if m_grow m then
      compute_partial_ratio
        (fdiv (gather fmode (masked_weights (growable_leaves (t_split t) (t_aff t)) (p_propose_grow b)) (m_node m))
          (snd (categorical (KSplit (KSplit (KSplit k (1 + zlen (trees b)) (1 + fst it)) 2 0) 3 0)
             (masked_weights (growable_leaves (t_split t) (t_aff t)) (p_propose_grow b)))))
        (count_nonzero (is_leaves_parent (scatter_set (t_split t) (m_node m) 1)))
        (p_nonterminal b) (m_node m)
    else
      compute_partial_ratio
        (fdiv (gather fmode (p_propose_grow b) (m_node m))
           (fsum_where (p_propose_grow b) (growable_leaves (scatter_set (t_split t) (m_node m) 0)
              (match t_aff t with None => None | Some a => Some (scatter_set a (m_node m) true) end))))
        (count_nonzero (is_leaves_parent (t_split t))) (p_nonterminal b) (m_node m).
  Proof.
    intros b k [i t]. cbn zeta. unfold move_of, sample_moves_tree, choose_move. cbn [fst snd].
    cbn [m_partial_ratio m_grow m_node].
    destruct (flt _ _).
    - rewrite grow_shape. reflexivity.
    - rewrite prune_shape. reflexivity.
  Qed.
End Shape.

Section Ratio.
  Context {zo : zoob} {foo : foob rops} {g : rng rops} {rl : rlaws g}.
  Variable b : @bart rops.
  Hypothesis SO : setup_ok b.
  Let d := bd b.
  Let points := map (gather zmode) (X b).
  Let mp := min_points_per_leaf b.
  Variable t : @tree rops.
  Hypothesis TI : tree_inv b t.
  Variable m : @move rops.
  Hypothesis MO : move_ok b t m.
  Hypothesis VE : var_ext b t (m_var_tree m).
  Let n := m_node m.
  Hypothesis NB : n < heap_size d.
  Hypothesis NZ : entry (snd (big_rules t m)) (m_node m) <> 0.
  Let small := small_rules t m.
  Let big := big_rules t m.
  Let gidx := apply_grow_to_indices m (t_idx t) (X b).
  Let weight (i : Z) : R := zget 0%R (p_propose_grow b) i.

  (** masks that select the leaves that can grow in the smaller tree *)
  Lemma mask_sum : forall mask, zlen mask = heap_size d ->
    (forall i, 0 <= i < heap_size d ->
       (zget false mask i = true <-> In i (growing_leaves d points mp small))) ->
    fold_left Rplus (map2 (fun (c : bool) p => if c then p else 0%R) mask (p_propose_grow b)) 0%R =
    rsum (map weight (growing_leaves d points mp small)).
  Proof.
    intros mask L H. pose proof (so_ppg_len _ SO) as Lp. fold d in Lp.
    rewrite masked_sum by (rewrite L; symmetry; exact Lp).
    apply rsum_perm. apply Permutation_map. apply masked_perm.
    - apply NoDup_growing; auto. apply (PL b t TI m MO VE NB NZ).
    - intros i. rewrite L. split.
      + intros Hi. pose proof Hi as Hj.
        apply (In_small b SO t TI m MO VE NB NZ) in Hi. destruct Hi as (Lf & Hi & _).
        pose proof (reachable_pos _ _ (proj1 Lf)). split; [fold d in Hi; lia |].
        apply H; auto. fold d in Hi; lia.
      + intros [Hi Hm]. apply H; auto.
  Qed.

  Lemma small_mask : forall aff,
    match mp with
    | None => aff = None
    | Some k => exists a, aff = Some a /\ zlen a = heap_size d /\
        forall i, leaf_node (snd small) i -> i < heap_size d ->
          zget false a i = (2 * k <=? occ (map (collapse n) gidx) i)
    end ->
    zlen (growable_leaves (snd small) aff) = heap_size d /\
    forall i, 0 <= i < heap_size d ->
      (zget false (growable_leaves (snd small) aff) i = true <->
       In i (growing_leaves d points mp small)).
  Proof.
    intros aff A. pose proof (PL b t TI m MO VE NB NZ) as (_ & _ & _ & L4).
    pose proof (SS b t TI m MO VE NB NZ) as [NS _].
    pose proof (is_actual_leaf_spec (snd small) false) as IL.
    assert (LL : zlen (is_actual_leaf (snd small) false) = heap_size d)
      by (rewrite zlen_is_actual_leaf; exact L4).
    unfold growable_leaves. split.
    - destruct mp; [destruct A as (a & -> & La & _); rewrite zlen_map2; lia | now subst aff].
    - intros i Hi. specialize (IL i NS ltac:(lia)).
      pose proof (In_small b SO t TI m MO VE NB NZ i) as IS.
      pose proof (small_occ b SO t TI m MO VE NB NZ i) as OC.
      fold d points mp small n gidx in IS, OC. rewrite IS.
      destruct mp as [k |].
      + destruct A as (a & -> & La & Ha). rewrite (zget_map2 _ _ _ _ _ false false) by lia.
        rewrite andb_true_iff, IL. split.
        * intros [L E]. rewrite Ha, (OC L) in E by (auto; lia). apply Z.leb_le in E.
          repeat split; try apply L; try lia. intros k' [= <-]. exact E.
        * intros (L & _ & E). split; auto. rewrite Ha, (OC L) by (auto; lia). apply Z.leb_le. now apply E.
      + subst aff. rewrite IL. split; [intros L; repeat split; try apply L; try lia; discriminate | tauto].
  Qed.
  Variables (km : key) (ti : Z).
  Hypothesis HM : m = move_of b km (ti, t).

  Lemma parents_grow : m_grow m = true ->
    count_nonzero (is_leaves_parent (scatter_set (t_split t) n 1)) =
    leaf_parents (structure d (fst big) (snd big)).
  Proof.
    intros G. pose proof (NR b t TI m MO VE NB NZ) as Hn. fold n d in Hn.
    pose proof (PL b t TI m MO VE NB NZ) as (_ & L2 & _).
    pose proof (parents_count b SO (fst big) (snd big) L2 (big_stray b t TI m MO VE NB NZ)) as PC.
    fold d in PC. rewrite <- PC. clear PC.
    pose proof (SD b t TI m MO VE NB NZ) as (_ & _ & E1 & _). fold big n in E1.
    pose proof (so_d _ SO) as Hd. fold d in Hd.
    pose proof (ti_split _ _ TI) as LS. fold d in LS.
    destruct (kinds b t TI m MO VE NB NZ) as
      [(MG & MA & CG & GP & Eb & Es & HV & RO & SN) | (MG & _)]; [| congruence].
    fold n big in Eb. rewrite Eb in *. cbn [snd] in *.
    rewrite entry_scatter, Z.eqb_refl in E1 by lia.
    f_equal. apply (list_ext _ false).
    { now rewrite !zlen_is_leaves_parent, !zlen_scatter_set. }
    rewrite zlen_is_leaves_parent, zlen_scatter_set. intros i Hi.
    rewrite !(zget_is_leaves_parent d) by (rewrite ?zlen_scatter_set; lia).
    rewrite !entry_scatter by lia.
    destruct (Z.eqb_spec i n), (Z.eqb_spec (2 * i) n), (Z.eqb_spec (2 * i + 1) n); try lia;
      rewrite ?(proj2 (Z.eqb_neq (m_grow_split m) 0) E1); reflexivity.
  Qed.

  Lemma partial_value :
    m_partial_ratio m = compute_partial_ratio (fo := rops)
      (weight n / rsum (map weight (growing_leaves d points mp small)))%R
      (leaf_parents (structure d (fst big) (snd big))) (p_nonterminal b) n.
  Proof.
    pose proof (NR b t TI m MO VE NB NZ) as Hn. fold n d in Hn.
    pose proof (PL b t TI m MO VE NB NZ) as (L1 & L2 & L3 & L4). fold small big d in L1, L2, L3, L4.
    pose proof (so_ppg_len _ SO) as Lp. fold d in Lp.
    pose proof (ti_split _ _ TI) as LS. fold d in LS.
    pose proof (small_idx b SO t TI m MO VE NB NZ) as SI. fold small n gidx in SI.
    pose proof (big_idx b SO t TI m MO VE NB NZ) as BI. fold big gidx in BI.
    pose proof (node_grows b SO t TI m MO VE NB NZ) as NG. fold d points mp small n in NG.
    pose proof (small_occ b SO t TI m MO VE NB NZ) as OC. fold small n gidx in OC.
    pose proof (big_leaves b t TI m MO VE NB NZ) as BL. fold big small n in BL.
    pose proof (move_shape b km (ti, t)) as SH. cbv zeta in SH. cbn [fst snd] in SH.
    rewrite <- HM in SH. fold n in SH. rewrite SH. clear SH.
    pose proof (ti_aff _ _ TI) as A. fold d mp in A.
    destruct (kinds b t TI m MO VE NB NZ) as
      [(MG & MA & CG & GP & Eb & Es & HV & RO & SN) | (MG & MA & PR & D1 & Eb & Es)];
      fold n big in Eb; fold n small in Es; rewrite MG.
    - rewrite parents_grow by auto. f_equal.
      assert (SM : zlen (growable_leaves (snd small) (t_aff t)) = heap_size d /\
        forall i, 0 <= i < heap_size d ->
          (zget false (growable_leaves (snd small) (t_aff t)) i = true <->
           In i (growing_leaves d points mp small))).
      { apply small_mask. destruct mp as [k |]; auto. destruct A as (a & A1 & A2 & A3).
        exists a. split; [auto |]. split; [auto |]. intros i Li Hi. rewrite SI.
        rewrite Es in Li |- *. cbn [fst snd] in *. rewrite <- (ti_idx _ _ TI). now apply A3. }
      rewrite (f_equal snd Es : snd small = _) in SM. cbn [snd] in SM. destruct SM as [S1 S2].
      set (mask := growable_leaves (t_split t) (t_aff t)) in *.
      assert (LM : zlen (masked_weights mask (p_propose_grow b)) = heap_size d).
      { unfold masked_weights. rewrite zlen_map2. rewrite Lp, S1. lia. }
      rewrite categorical_total.
      2: { intros E. rewrite E in LM. rewrite zlen_nil in LM. lia. }
      assert (GI : gather fmode (masked_weights mask (p_propose_grow b)) n = weight n).
      { rewrite (gather_in _ fmode (@f0 rops)) by (rewrite LM; lia).
        unfold masked_weights.
        rewrite (zget_map2 _ _ _ _ _ false (@f0 rops)) by (rewrite ?S1, ?Lp; lia).
        rewrite (proj2 (S2 n ltac:(lia)) NG). reflexivity. }
      rewrite GI.
      cbn [fdiv rops]. f_equal.
      apply mask_sum; auto.
    - rewrite (gather_in _ fmode (@f0 rops)) by (rewrite Lp; lia). f_equal.
      + cbn [fdiv rops]. unfold weight at 1. f_equal. unfold fsum_where.
        assert (SM : zlen (growable_leaves (snd small) (match t_aff t with None => None | Some a => Some (scatter_set a n true) end)) = heap_size d /\
          forall i, 0 <= i < heap_size d ->
            (zget false (growable_leaves (snd small) (match t_aff t with None => None | Some a => Some (scatter_set a n true) end)) i = true <->
             In i (growing_leaves d points mp small))).
        { apply small_mask. pose proof (In_small b SO t TI m MO VE NB NZ n) as IS.
          fold d points mp small n gidx in IS. apply IS in NG. destruct NG as (NL & _ & NG).
          rewrite Z.eqb_refl in NG.
          destruct mp as [k |]; [| now rewrite A]. destruct A as (a & -> & A2 & A3).
          eexists. split; [reflexivity |]. split; [now rewrite zlen_scatter_set |].
          intros i Li Hi. pose proof (reachable_pos _ _ (proj1 Li)).
          rewrite OC by auto. rewrite zget_scatter_set by lia. rewrite (Z.eqb_sym n i).
          destruct (Z.eqb_spec i n) as [-> | N].
          - symmetry. apply Z.leb_le. now apply NG.
          - assert (LB : leaf_node (snd big) i) by (apply BL; auto).
            rewrite Eb in LB, BI. cbn [fst snd] in LB, BI. rewrite BI, <- (ti_idx _ _ TI).
            now apply A3. }
        rewrite (f_equal snd Es : snd small = _) in SM. cbn [snd] in SM. destruct SM as [S1 S2]. apply mask_sum; auto.
      + pose proof (parents_count b SO (fst big) (snd big) L2 (big_stray b t TI m MO VE NB NZ)) as PC.
        fold d in PC. rewrite <- PC, Eb. reflexivity.
  Qed.

  Lemma two_elements : forall l : list Z, NoDup l -> forall x, In x l ->
    (2 <= zlen l <-> exists y, In y l /\ y <> x).
  Proof.
    intros l ND x Hx. split.
    - intros H. destruct l as [| a [| c l]]; [rewrite zlen_nil in H; lia | rewrite zlen_cons, zlen_nil in H; lia |].
      destruct (Z.eq_dec a x) as [-> | N]; [| exists a; split; auto; now left].
      exists c. split; [right; now left |]. intros ->. inversion_clear ND. apply H0. now left.
    - intros (y & Hy & N). destruct l as [| a [| c l]]; [destruct Hx | |].
      + destruct Hx as [-> | []], Hy as [-> | []]. lia.
      + rewrite !zlen_cons. pose proof (zlen_nonneg _ l). lia.
  Qed.

  Lemma nonempty_iff : forall (l : list Z) (q : bool), (q = true <-> exists x, In x l) ->
    forall A (u v : A), (if q then u else v) = match l with [] => v | _ => u end.
  Proof.
    intros l q H A u v. destruct l as [| x l], q; auto.
    - destruct (proj1 H eq_refl) as [x []].
    - assert (false = true) by (apply H; exists x; now left). discriminate.
  Qed.

  Hypothesis NGR : m_num_growable m = count_nonzero (growable_leaves (t_split t) (t_aff t)).

  Lemma p_prune_value :
    compute_p_prune (fo := rops) m (occ gidx (2 * n)) (occ gidx (2 * n + 1)) mp =
    prob_prune d points mp big.
  Proof.
    pose proof (NR b t TI m MO VE NB NZ) as Hn. fold n d in Hn.
    pose proof (PL b t TI m MO VE NB NZ) as (L1 & L2 & L3 & L4). fold small big d in L1, L2, L3, L4.
    pose proof (so_d _ SO) as Hd. fold d in Hd.
    pose proof (growable_spec b t TI) as GS. fold d in GS.
    pose proof (big_idx b SO t TI m MO VE NB NZ) as BI. fold big gidx in BI.
    pose proof (node_grows b SO t TI m MO VE NB NZ) as NG. fold d points mp small n in NG.
    pose proof (NoDup_growing b SO small L4) as ND. fold d points mp in ND.
    pose proof (In_small b SO t TI m MO VE NB NZ) as IS. fold d points mp small n gidx in IS.
    pose proof (In_big b SO t TI m MO VE NB NZ) as IB. fold d points mp big n gidx in IB.
    pose proof (big_leaves b t TI m MO VE NB NZ) as BL. fold big small n in BL.
    pose proof (ti_split _ _ TI) as LS. fold d in LS.
    pose proof (big_stump b SO t TI m MO VE NB NZ) as ST. fold d big in ST.
    assert (LM : zlen (growable_leaves (t_split t) (t_aff t)) = heap_size d).
    { unfold growable_leaves. pose proof (ti_aff _ _ TI) as A. fold d mp in A.
      destruct mp; [destruct A as (a & -> & La & _); rewrite zlen_map2 | rewrite A];
        rewrite zlen_is_actual_leaf; lia. }
    assert (CU : forall i, In i (growing_leaves d points mp (t_var t, t_split t)) <-> can_grow b t i).
    { intros i. pose proof (In_growing b SO (t_var t, t_split t) (ti_var _ _ TI) LS i) as IG.
      cbn [fst snd] in IG. fold d points mp in IG. rewrite IG, <- (ti_idx _ _ TI). reflexivity. }
    assert (GL : count_nonzero (growable_leaves (t_split t) (t_aff t)) =
                 zlen (growing_leaves d points mp (t_var t, t_split t))).
    { apply count_nonzero_perm_len. apply masked_perm.
      - apply NoDup_growing; auto.
      - intros i. rewrite LM, CU. split.
        + intros C. assert (0 <= i < heap_size d).
          { pose proof (reachable_pos _ _ (proj1 (proj1 C))). destruct C as (_ & C & _).
            fold d in C. lia. }
          split; auto. now apply GS.
        + intros [Hi H]. now apply GS. }
    assert (EH : @fhalf rops = (1 / 2)%R) by (cbn; lra).
    assert (HE : heap_size d = 2 * (heap_size d / 2)).
    { unfold heap_size. replace (d - 1) with (Z.succ (d - 2)) by lia. rewrite Z.pow_succ_r by lia. lia. }
    unfold prob_prune, structure_of. rewrite ST. unfold compute_p_prune.
    destruct (kinds b t TI m MO VE NB NZ) as
      [(MG & MA & CG & GP & Eb & Es & HV & RO & SN) | (MG & MA & PR & D1 & Eb & Es)];
      fold n big in Eb; fold n small in Es; rewrite MG; rewrite NGR, GL, EH;
      change (@f1 rops) with 1%R.
    - rewrite <- Es. rewrite (proj1 VE). fold d n. apply nonempty_iff.
      rewrite orb_true_iff, Z.leb_le, (two_elements _ ND n NG). split.
      + intros [(y & Hy & N) | Q].
        * exists y. apply IB. apply IS in Hy. destruct Hy as (Y1 & Y2 & Y3).
          rewrite (proj2 (Z.eqb_neq y n) N) in Y3. split; [apply BL; auto | auto].
        * assert (2 * n + 1 < heap_size d).
          { destruct mp; [apply andb_true_iff in Q; destruct Q as [Q _] |]; apply Z.ltb_lt in Q; lia. }
          destruct mp as [k |] eqn:Ek.
          -- apply andb_true_iff in Q. destruct Q as [_ Q]. apply orb_true_iff in Q.
             rewrite !Z.leb_le in Q.
             destruct Q as [Q | Q]; [exists (2 * n) | exists (2 * n + 1)]; apply IB;
               (split; [apply BL; auto | split; [lia |]]); intros k' [= <-]; exact Q.
          -- exists (2 * n). apply IB. split; [apply BL; auto | split; [lia | discriminate]].
      + intros (y & Hy). apply IB in Hy. destruct Hy as (Y1 & Y2 & Y3). apply BL in Y1.
        destruct Y1 as [[Y1 N] | Y1].
        * left. exists y. split; auto. apply IS. rewrite (proj2 (Z.eqb_neq y n) N). auto.
        * right. assert (Q : n <? heap_size d / 2 = true) by (apply Z.ltb_lt; lia). rewrite Q.
          destruct mp as [k |]; auto. rewrite andb_true_l, orb_true_iff, !Z.leb_le.
          specialize (Y3 k eq_refl). destruct Y1 as [-> | ->]; auto.
    - rewrite <- Eb. apply nonempty_iff. rewrite negb_true_iff, Z.eqb_neq. split.
      + intros H. destruct (growing_leaves d points mp big) as [| x l].
        * rewrite zlen_nil in H. lia.
        * exists x. now left.
      + intros (x & Hx). destruct (growing_leaves d points mp big) as [| z l]; [destruct Hx |].
        rewrite zlen_cons. pose proof (zlen_nonneg _ l). lia.
  Qed.

  Lemma parents_pos : 1 <= leaf_parents (structure d (fst big) (snd big)).
  Proof.
    pose proof (NR b t TI m MO VE NB NZ) as Hn. fold n d in Hn.
    pose proof (PL b t TI m MO VE NB NZ) as (_ & L2 & _). fold big d in L2.
    pose proof (so_d _ SO) as Hd. fold d in Hd.
    pose proof (parents_count b SO (fst big) (snd big) L2 (big_stray b t TI m MO VE NB NZ)) as PC.
    fold d in PC. rewrite <- PC.
    pose proof (count_nonzero_nonneg (is_leaves_parent (snd big))).
    enough (count_nonzero (is_leaves_parent (snd big)) <> 0) by lia.
    apply count_pos_zget. exists n. rewrite zlen_is_leaves_parent. split; [lia |].
    rewrite (zget_is_leaves_parent d) by lia.
    pose proof (SD b t TI m MO VE NB NZ) as (_ & _ & E1 & _). fold big n in E1.
    pose proof (CZ b t TI m MO VE NB NZ) as (Z1 & Z2 & _). fold big n in Z1, Z2.
    rewrite Z1, Z2, (proj2 (Z.eqb_neq _ _) E1). reflexivity.
  Qed.

  Lemma rsum_nonneg_pos : forall (h : Z -> R) l x, (forall i, In i l -> (0 <= h i)%R) ->
    In x l -> (0 < h x)%R -> (0 < rsum (map h l))%R.
  Proof.
    intros h l x H0 Hx Hp. unfold rsum. induction l as [| a l IH]; [destruct Hx |].
    cbn [map fold_right].
    assert (N : forall l', (forall i, In i l' -> (0 <= h i)%R) -> (0 <= fold_right Rplus 0 (map h l'))%R).
    { clear. induction l' as [| a l' IH]; intros H; cbn; [lra |].
      pose proof (H a (or_introl eq_refl)). specialize (IH (fun i Hi => H i (or_intror Hi))). lra. }
    pose proof (H0 a (or_introl eq_refl)). destruct Hx as [-> | Hx].
    - specialize (N l (fun i Hi => H0 i (or_intror Hi))). lra.
    - specialize (IH (fun i Hi => H0 i (or_intror Hi)) Hx). lra.
  Qed.

  Variables (p : Z -> R) (w : rules_above -> Z -> Z -> R).
  Hypothesis P0 : forall k, 0 <= k < d -> p k = zget 0%R (p_nonterminal b) k.
  Hypothesis P1 : forall k, 0 <= k < d - 1 -> (0 < p k < 1)%R.
  Hypothesis P2 : p (d - 1) = 0%R.
  Hypothesis PS : (0 < prior d p w small)%R.
  Hypothesis PB : (0 < prior d p w big)%R.

  Lemma trans_value :
    let v := entry (fst big) n in let s := entry (snd big) n in
    (0 < q_grow d points mp p w small n v s)%R /\ (0 < q_prune d points mp big)%R /\
    flog (fmul (m_partial_ratio m)
       (compute_p_prune m (occ gidx (2 * n)) (occ gidx (2 * n + 1)) mp)) =
    ln (prior d p w big * q_prune d points mp big /
        (prior d p w small * q_grow d points mp p w small n v s)).
  Proof.
    intros v s.
    pose proof (NR b t TI m MO VE NB NZ) as Hn. fold n d in Hn.
    pose proof (PL b t TI m MO VE NB NZ) as (L1 & L2 & L3 & L4). fold small big d in L1, L2, L3, L4.
    pose proof (so_d _ SO) as Hd. fold d in Hd.
    pose proof (node_grows b SO t TI m MO VE NB NZ) as NG. fold d points mp small n in NG.
    pose proof (In_small b SO t TI m MO VE NB NZ) as IS. fold d points mp small n gidx in IS.
    pose proof (SS b t TI m MO VE NB NZ) as [NS [RN _]]. fold small n in NS, RN.
    pose proof (SD b t TI m MO VE NB NZ) as (S & E0 & E1 & EV). fold small big n in S, E0, E1, EV.
    pose proof (CZ b t TI m MO VE NB NZ) as (_ & _ & Z3 & Z4). fold small n in Z3, Z4.
    pose proof parents_pos as NP.
    assert (LG : 0 <= Z.log2 n < d - 1).
    { split; [apply Z.log2_nonneg |]. apply Z.log2_lt_pow2; [lia |]. apply Hn. }
    (* the prior *)
    destruct (prior_grow p w (fst small) (fst big) (snd small) (snd big) n ltac:(lia) S E1 RN E0 Z3 Z4 EV
                (Z.to_nat d - 1) 1 ltac:(lia)) as (C & PR1 & PR2).
    { apply (levels_ok b SO). exact L4. }
    { apply under_root. lia. }
    change (above (fst small) (snd small) 1) with (@nil (Z * Z * bool)) in PR1, PR2.
    change (prior d p w small = (C * (1 - p (Z.log2 n)))%R) in PR1.
    change (prior d p w big = (C * (p (Z.log2 n) * w (above (fst small) (snd small) n) v s *
          (1 - p (Z.log2 n + 1)%Z) * (1 - p (Z.log2 n + 1)%Z)))%R) in PR2.
    set (W := w (above (fst small) (snd small) n) v s) in *.
    set (p0 := p (Z.log2 n)) in *. set (p1 := p (Z.log2 n + 1)) in *.
    assert (Hp0 : (0 < p0 < 1)%R) by (apply P1; lia).
    assert (Hp1 : (0 < 1 - p1)%R).
    { unfold p1. destruct (Z.eq_dec (Z.log2 n + 1) (d - 1)) as [-> | N]; [rewrite P2; lra |].
      pose proof (P1 (Z.log2 n + 1) ltac:(lia)). lra. }
    assert (HC : (0 < C)%R).
    { rewrite PR1 in PS. apply Rmult_lt_reg_r with (1 - p0)%R; lra. }
    assert (HW : (0 < W)%R).
    { rewrite PR2 in PB.
      assert (0 < C * p0 * (1 - p1) * (1 - p1))%R by (repeat apply Rmult_lt_0_compat; lra).
      apply Rmult_lt_reg_l with (C * p0 * (1 - p1) * (1 - p1))%R; auto. lra. }
    (* the proposal *)
    assert (WG : forall i, 1 <= i < heap_size d -> weight i = p (Z.log2 i)).
    { intros i Hi. unfold weight. pose proof (so_ppg _ SO i Hi) as E. cbn [f0 rops] in E.
      etransitivity; [exact E |]. symmetry. apply P0. split; [apply Z.log2_nonneg |].
      assert (Z.log2 i < d - 1) by (apply Z.log2_lt_pow2; [lia | apply Hi]). lia. }
    assert (IN : forall i, In i (growing_leaves d points mp small) -> 1 <= i < heap_size d).
    { intros i Hi. apply IS in Hi. destruct Hi as ([R _] & Hi & _).
      apply reachable_pos in R. lia. }
    assert (WS : rsum (map weight (growing_leaves d points mp small)) =
                 rsum (map (fun i => p (Z.log2 i)) (growing_leaves d points mp small))).
    { f_equal. apply map_ext_in. intros i Hi. apply WG. now apply IN. }
    set (Sg := rsum (map (fun i => p (Z.log2 i)) (growing_leaves d points mp small))) in *.
    assert (HS : (0 < Sg)%R).
    { unfold Sg. apply (rsum_nonneg_pos (fun i => p (Z.log2 i)) _ n); auto; [| apply Hp0].
      intros i Hi. apply IN in Hi.
      assert (0 <= Z.log2 i < d - 1).
      { split; [apply Z.log2_nonneg |]. apply Z.log2_lt_pow2; [lia | apply Hi]. }
      pose proof (P1 (Z.log2 i) ltac:(lia)). lra. }
    pose (pg := if negb (n =? 1) then (/ 2)%R else 1%R).
    assert (PG : prob_grow d points mp small = pg).
    { unfold prob_grow, structure_of. pose proof (small_stump b SO t TI m MO VE NB NZ) as ST.
      fold d small n in ST. rewrite ST.
      destruct (growing_leaves d points mp small); [destruct NG |].
      unfold pg. destruct (n =? 1); cbn; lra. }
    assert (Hpg : (0 < pg)%R) by (unfold pg; destruct (n =? 1); cbn; lra).
    assert (QG : q_grow d points mp p w small n v s = (pg * (p0 / Sg) * W)%R)
      by (unfold q_grow; now rewrite PG).
    set (L := leaf_parents (structure d (fst big) (snd big))) in *.
    assert (HL : (0 < IZR L)%R) by (apply IZR_lt; lia).
    pose proof p_prune_value as PP.
    set (pp := prob_prune d points mp big) in *.
    assert (Hpp : (0 < pp)%R).
    { unfold pp, prob_prune, structure_of. pose proof (big_stump b SO t TI m MO VE NB NZ) as ST.
      fold d big in ST. rewrite ST. destruct (growing_leaves d points mp big); [exact Rlt_0_1 | apply Rdiv_lt_0_compat; lra]. }
    assert (QP : q_prune d points mp big = (pp * (1 / IZR L))%R) by reflexivity.
    split; [| split].
    - rewrite QG. repeat apply Rmult_lt_0_compat; try lra. now apply Rinv_0_lt_compat.
    - rewrite QP. apply Rmult_lt_0_compat; auto. apply Rdiv_lt_0_compat; lra.
    - rewrite PP. rewrite partial_value, WS, (WG n Hn). fold p0.
      cbn [flog rops]. f_equal. rewrite QG, QP, PR1, PR2.
      assert (CP : compute_partial_ratio (fo := rops) (p0 / Sg)%R L (p_nonterminal b) n =
        ((1 - p1) * (1 - p1) * p0 / (1 - p0) / (pg * (p0 / Sg) * IZR L))%R).
      { unfold compute_partial_ratio.
        assert (TD : gather zmode (tree_depths (2 ^ (zlen (p_nonterminal b) - 1))) n = Z.log2 n).
        { change (2 ^ (zlen (p_nonterminal b) - 1)) with (heap_size d).
          rewrite (gather_in _ _ 0) by (rewrite zlen_tree_depths; lia).
          apply zget_tree_depths. lia. }
        rewrite TD.
        assert (G0 : forall k, 0 <= k < d -> gather fmode (p_nonterminal b) k = p k).
        { intros k Hk. rewrite P0 by auto. apply gather_in. exact Hk. }
        rewrite !G0 by lia. reflexivity. }
      cbn [fmul rops]. etransitivity; [apply (f_equal (fun x => (x * pp)%R) CP) |].
      cbn beta. match goal with |- @eq _ ?a ?b => change (@eq R a b) end. field. repeat split; lra.
  Qed.
End Ratio.
