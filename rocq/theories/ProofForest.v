(** Consequences of the invariant, in the words of the specification. *)
From Coq Require Import ZArith List Bool Lia.
From Verif Require Import Base LemBase ModelJaxext ModelGrove ModelStep SpecTree
  SpecSampling SpecRange SpecForest Laws ProofTree ProofSampling ProofCategorical ProofRange
  ProofAggregate ProofRoute ProofMoves ProofStep SpecRun ProofRun.
Import ListNotations.
Open Scope Z_scope.
Ltac Zify.zify_post_hook ::= Z.div_mod_to_equations.

(** ** [leaf_of] and [points_in] *)

Lemma leaf_of_route : forall x var sp levels i,
  1 <= i -> zlen sp <= i * 2 ^ Z.of_nat levels ->
  route x var sp i (leaf_of levels x var sp i).
Proof.
  induction levels as [| levels IH]; intros i Hi Hl; cbn [leaf_of].
  - apply route_stop. apply not_decision_over. change (2 ^ Z.of_nat 0) with 1 in Hl. lia.
  - rewrite Nat2Z.inj_succ, Z.pow_succ_r in Hl by lia.
    destruct (Z.eqb_spec (entry sp i) 0) as [E | E].
    + apply route_stop. intros [_ N]. auto.
    + assert (D : decision sp i) by (split; auto).
      destruct (Z.ltb_spec (x (entry var i)) (entry sp i)).
      * apply route_left; auto. apply IH; lia.
      * apply route_right; auto. apply IH; lia.
Qed.

Lemma leaf_of_traverse : forall {zo : zoob} d x var sp,
  1 <= d <= 64 -> zlen var = heap_size d -> zlen sp = heap_size d ->
  leaf_of (Z.to_nat d - 1) (gather zmode x) var sp 1 = traverse_tree x var sp.
Proof.
  intros zo d x var sp Hd Hv Hs.
  eapply route_det; [| now apply (traverse_tree_route d)].
  apply leaf_of_route; [lia |]. rewrite Hs. unfold heap_size.
  replace (Z.of_nat (Z.to_nat d - 1)) with (d - 1) by lia. lia.
Qed.

Lemma occ_map_filter : forall A (f : A -> Z) l i,
  occ (map f l) i = Z.of_nat (length (filter (fun x => f x =? i) l)).
Proof.
  induction l; intros i; cbn [map filter]; [reflexivity |].
  rewrite occ_cons, IHl. destruct (f a =? i); cbn [b2z length]; lia.
Qed.

(** ** structure *)

Lemma descends_det : forall a b i, 1 <= a -> descends a b i -> forall b', descends a b' i -> b = b'.
Proof.
  intros a b i Ha H. induction H; intros b' H'; apply descends_inv in H'; auto;
    destruct H' as [_ [[E1 E2] | H']].
  - rewrite E2. replace (2 * a mod 2) with 0 by lia. reflexivity.
  - replace (2 * a / 2) with a in H' by lia. apply descends_gt in H'; lia.
  - rewrite E2. replace ((2 * a + 1) mod 2) with 1 by lia. reflexivity.
  - replace ((2 * a + 1) / 2) with a in H' by lia. apply descends_gt in H'; lia.
  - apply descends_gt in H; auto. lia.
  - replace (2 * i / 2) with i in H' by lia. auto.
  - apply descends_gt in H; auto. lia.
  - replace ((2 * i + 1) / 2) with i in H' by lia. auto.
Qed.

Definition child (a : Z) (b : bool) : Z := 2 * a + b2z b.

(** [n] is [i] or below *)
Definition under (i n : Z) : Prop := n = i \/ exists b, descends i b n.

Lemma descends_child : forall a b n, descends a b n -> under (child a b) n.
Proof.
  intros a b n H. unfold under, child. induction H; cbn [b2z].
  - left. lia.
  - left. lia.
  - right. destruct IHdescends as [-> | [b' H']].
    + exists false. constructor.
    + exists b'. now constructor.
  - right. destruct IHdescends as [-> | [b' H']].
    + exists true. constructor.
    + exists b'. now constructor.
Qed.

Lemma child_descends : forall a b n, under (child a b) n -> descends a b n.
Proof.
  intros a b n [-> | [b' H]].
  - unfold child. destruct b; cbn [b2z]; [constructor |]. rewrite Z.add_0_r. constructor.
  - induction H; try (now constructor).
    + apply desc_down_left. destruct b; unfold child; cbn [b2z]; [constructor |].
      rewrite Z.add_0_r. constructor.
    + apply desc_down_right. destruct b; unfold child; cbn [b2z]; [constructor |].
      rewrite Z.add_0_r. constructor.
Qed.

Lemma under_root : forall n, 1 <= n -> under 1 n.
Proof.
  intros n Hn. destruct (Z.eq_dec n 1) as [-> | N]; [now left | right].
  apply descends_pow; try lia. exists (Z.log2 n).
  pose proof (Z.log2_spec n ltac:(lia)) as LS.
  assert (1 <= Z.log2 n) by (apply Z.log2_le_pow2; [lia | change (2 ^ 1) with 2; lia]).
  split; auto. rewrite Z.pow_succ_r in LS by lia.
  apply Z.div_unique with (r := n - 2 ^ Z.log2 n); lia.
Qed.

Lemma decode_ext : forall var var' sp sp' levels i, 1 <= i ->
  (forall j, under i j -> entry sp' j = entry sp j) ->
  (forall j, under i j -> decision sp j -> entry var' j = entry var j) ->
  decode tt [] var' sp' levels i = decode tt [] var sp levels i.
Proof.
  induction levels as [| levels IH]; intros i Hi Hs Hv; cbn [decode]; auto.
  - rewrite Hs by now left. destruct (Z.eqb_spec (entry sp i) 0) as [E | E].
    + reflexivity.
    + rewrite Hv; [| now left | split; auto].
      assert (U : forall b j, under (child i b) j -> under i j).
      { intros b j H. right. exists b. now apply child_descends. }
      f_equal; apply IH; try lia; intros j Hj.
      * apply Hs. apply (U false). unfold child. cbn [b2z]. now rewrite Z.add_0_r.
      * apply Hv. apply (U false). unfold child. cbn [b2z]. now rewrite Z.add_0_r.
      * apply Hs. apply (U true). exact Hj.
      * apply Hv. apply (U true). exact Hj.
Qed.

Lemma nth_nil_tt : forall n, nth n (@nil unit) tt = tt.
Proof. destruct n; auto. Qed.

Lemma decode_leaf : forall var sp levels i, entry sp i = 0 ->
  decode tt [] var sp levels i = DLeaf tt.
Proof.
  intros var sp levels i E. destruct levels; cbn [decode]; rewrite ?E, ?nth_nil_tt; auto.
Qed.

Lemma decode_grow : forall var var' sp sp' n s, 1 <= n < zlen sp -> set_node sp sp' n s -> s <> 0 ->
  reachable sp n -> ~ decision sp n -> entry sp (2 * n) = 0 -> entry sp (2 * n + 1) = 0 ->
  (forall j, decision sp j -> entry var' j = entry var j) ->
  forall levels i, 1 <= i -> zlen sp <= i * 2 ^ Z.of_nat levels -> under i n ->
  grows_to (decode tt [] var sp levels i) (decode tt [] var' sp' levels i).
Proof.
  intros var var' sp sp' n s Hn S Hs R ND E2 E3 V.
  assert (En : entry sp n = 0) by (apply not_decision_0; auto; lia).
  induction levels as [| levels IH]; intros i Hi Hl U.
  - exfalso. change (2 ^ Z.of_nat 0) with 1 in Hl.
    destruct U as [-> | [b H]]; [lia |]. apply descends_gt in H; auto. lia.
  - rewrite Nat2Z.inj_succ, Z.pow_succ_r in Hl by lia.
    destruct (Z.eq_dec i n) as [-> | Ni].
    + rewrite (decode_leaf var sp) by auto. cbn [decode].
      rewrite S, Z.eqb_refl by lia. rewrite (proj2 (Z.eqb_neq _ _) Hs).
      rewrite !decode_leaf; [constructor | |]; rewrite S by lia.
      * destruct (Z.eqb_spec (2 * n + 1) n); auto. lia.
      * destruct (Z.eqb_spec (2 * n) n); auto. lia.
    + destruct U as [U | [b H]]; [congruence |].
      assert (D : decision sp i) by (eapply reachable_above; eauto).
      cbn [decode]. rewrite S by lia. destruct (Z.eqb_spec i n); [congruence |].
      destruct D as [_ D]. rewrite (proj2 (Z.eqb_neq _ _) D).
      rewrite V by (split; auto).
      assert (O : forall j, under (child i (negb b)) j -> entry sp' j = entry sp j).
      { intros j Hj. assert (j <> n).
        { intros ->. apply child_descends in Hj. pose proof (descends_det _ _ _ Hi H _ Hj) as Eb.
          destruct b; discriminate. }
        assert (1 <= j).
        { apply child_descends in Hj. apply descends_gt in Hj; lia. }
        rewrite S by lia. destruct (Z.eqb_spec j n); auto. congruence. }
      apply descends_child in H. unfold child in H, O. destruct b; cbn [b2z negb] in H, O.
      * rewrite Z.add_0_r in O. rewrite (decode_ext var var' sp sp' levels (2 * i)); auto; try lia.
        apply grow_right. apply IH; auto; lia.
      * rewrite Z.add_0_r in H. rewrite (decode_ext var var' sp sp' levels (2 * i + 1)); auto; try lia.
        apply grow_left. apply IH; auto; lia.
Qed.

Section Forest.
  Context {fo : fops} {zo : zoob} {foo : foob fo} {fl : flaws fo}.

  Variable b : bart.
  Hypothesis I : inv b.

  Lemma bd_range : 2 <= bd b <= 64.
  Proof. apply (so_d b (in_setup _ I)). Qed.

  Definition pts : list (Z -> Z) := map (gather zmode) (X b).

  Lemma idx_leaf_of : forall t, In t (trees b) ->
    t_idx t = map (fun x => leaf_of (Z.to_nat (bd b) - 1) x (t_var t) (t_split t) 1) pts.
  Proof.
    intros t Ht. pose proof (in_trees _ I t Ht) as T. rewrite (ti_idx _ _ T).
    unfold pts. rewrite map_map. apply map_ext. intros x. symmetry.
    pose proof bd_range.
    apply leaf_of_traverse; [lia | apply (ti_var _ _ T) | apply (ti_split _ _ T)].
  Qed.

  Lemma occ_points_in : forall t i, In t (trees b) ->
    occ (t_idx t) i = points_in (bd b) pts (t_var t) (t_split t) i.
  Proof.
    intros t i Ht. rewrite idx_leaf_of by auto. apply occ_map_filter.
  Qed.

  (** C11 *)
  Lemma few_points : forall m t, min_points_per_leaf b = Some m -> zlen (X b) < 2 * m ->
    In t (trees b) -> forall i, ~ decision (t_split t) i.
  Proof.
    intros m t Em Hn Ht i D. pose proof (in_trees _ I t Ht) as T.
    assert (D1 : decision (t_split t) 1).
    { pose proof (ti_stray _ _ T i D) as R. pose proof (reachable_pos _ _ R).
      destruct (under_root i) as [-> | [b0 H']]; auto. eapply reachable_above; eauto; lia. }
    destruct (leaves_parent_exists _ D1) as (j & R & Dj & N1 & N2).
    assert (L1 : leaf_node (t_split t) (2 * j)) by (split; auto; now constructor).
    assert (L2 : leaf_node (t_split t) (2 * j + 1)) by (split; auto; now constructor).
    pose proof (ti_min _ _ T m Em D1 _ L1). pose proof (ti_min _ _ T m Em D1 _ L2).
    pose proof (occ_2_le (t_idx t) (2 * j) (2 * j + 1) ltac:(lia)).
    rewrite (ti_idx _ _ T), zlen_map in H1. rewrite <- (ti_idx _ _ T) in H1. lia.
  Qed.

  (** growable leaves in the words of the specification *)
  Definition growable (t : tree) (i : Z) : Prop :=
    leaf_node (t_split t) i /\ i < heap_size (bd b) /\
    forall m, min_points_per_leaf b = Some m ->
      2 * m <= points_in (bd b) pts (t_var t) (t_split t) i.

  Lemma growable_can_grow : forall t i, In t (trees b) -> (can_grow b t i <-> growable t i).
  Proof.
    intros t i Ht. unfold can_grow, growable. rewrite occ_points_in by auto. reflexivity.
  Qed.

  Lemma growable_mask : forall t i, In t (trees b) -> 0 <= i < heap_size (bd b) ->
    (zget false (growable_leaves (t_split t) (t_aff t)) i = true <-> growable t i).
  Proof.
    intros t i Ht Hi. rewrite <- growable_can_grow by auto.
    apply growable_spec; auto. now apply (in_trees _ I).
  Qed.

  Section Step.
    Context {g : rng fo} {rl : rlaws g}.
    Variable k : key.
    Let km := KSplit (KSplit k 2 1) 2 1.
    Let ka := KSplit (KSplit k 2 1) 2 0.

    (** what happened to each tree *)
    Lemma step_outcome : exists l : list (Z * tree * stage2),
      map fst l = enumerate (trees b) /\
      trees (step b k) = map (new_tree b km ka) l /\
      grow_prop_count (step b k) = count_nonzero (map (fun ita => m_grow (move_of b km (fst ita))) l) /\
      prune_prop_count (step b k) = count_nonzero (map (fun ita =>
           m_allowed (move_of b km (fst ita)) && negb (m_grow (move_of b km (fst ita)))) l) /\
      grow_acc_count (step b k) = count_nonzero (map (fun ita =>
           a_acc (snd ita) && m_grow (move_of b km (fst ita))) l) /\
      prune_acc_count (step b k) = count_nonzero (map (fun ita =>
           a_acc (snd ita) && negb (m_grow (move_of b km (fst ita)))) l) /\
      forall it a, In (it, a) l ->
        In (snd it) (trees b) /\ tree_inv b (snd it) /\
        (a_acc a = true -> m_allowed (move_of b km it) = true) /\
        t_var (new_tree b km ka (it, a)) = m_var_tree (move_of b km it) /\
        outcome b (snd it) (move_of b km it) ka (fst it) g a.
    Proof.
      destruct (step_fields b k) as
        (_ & _ & _ & _ & _ & _ & _ & _ & _ & _ & _ & ET & ER & C1 & C2 & C3 & C4).
      destruct (sample_trees_list b (KSplit k 2 1)) as (l & M & A & SQ & T & D1 & D2 & D3 & D4 & _).
      cbv zeta in *. fold km ka in A, T, D1, D2, D3, D4.
      exists l. split; auto. split; [congruence |].
      split; [congruence |]. split; [congruence |]. split; [congruence |]. split; [congruence |].
      intros it a Hin.
      assert (Ht : In (snd it) (trees b)) by (eapply In_fst_enum; eauto).
      pose proof (in_trees _ I _ Ht) as TI. pose proof (in_setup _ I) as SO.
      destruct (A it a Hin) as (r1 & r2 & E).
      destruct (move_of_cases b km it SO TI) as (H1 & H2 & H3 & H4 & _).
      split; auto. split; auto. split; [| split].
      - destruct (accept_facts _ _ _ _ _ _ _ E) as (_ & H & _).
        unfold stage_of in H. rewrite st_move in H. auto.
      - unfold new_tree, stage_of. cbn [fst snd]. apply t'_var; auto.
      - eapply outcomes; eauto.
    Qed.
  End Step.
End Forest.

(** ** rules are valid (C10) *)
Section Valid.
  Context {fo : fops} {zo : zoob} {foo : foob fo} {fl : flaws fo}.

  Variable s : settings.
  Hypothesis OK : settings_ok s.
  Variable mp : Z.
  Hypothesis Hmp : i_min_points s = Some mp.
  Hypothesis Hmp1 : 1 <= mp.
  Let p := zlen (i_max_split s).
  (** data within the bins *)
  Hypothesis Hlen : forall x, In x (i_X s) -> zlen x = p.
  Hypothesis Hbin : forall x v, In x (i_X s) -> 0 <= v < p ->
    0 <= entry x v <= entry (i_max_split s) v.

  Lemma gather_oob : forall (x x' : list Z) v, zlen x = p -> zlen x' = p -> p <= v ->
    (forall w, 0 <= w < p -> entry x w = entry x' w) ->
    gather zmode x v = gather zmode x' v.
  Proof.
    intros x x' v Hx Hx' Hv E. pose proof (ok_p _ OK) as Hp. fold p in Hp.
    unfold gather. rewrite Hx, Hx'. rewrite norm_index_nonneg by lia.
    assert (in_bounds p v = false) as -> by (apply in_bounds_false; lia).
    destruct (oob_clip zmode); auto. destruct (Z.ltb_spec v 0); [lia |].
    specialize (E (p - 1) ltac:(lia)). unfold entry in E.
    rewrite !(nth_indep _ (oob_fill zmode) 0) by (unfold zlen in *; lia). auto.
  Qed.

  Lemma gather_entry : forall x v, In x (i_X s) -> 0 <= v < p -> gather zmode x v = entry x v.
  Proof. intros x v Hx Hv. apply gather_in. rewrite Hlen; auto. Qed.

  (** all points in an exhausted leaf have the same predictors *)
  Lemma exhausted_same : forall b t n x x', inv b -> X b = i_X s -> max_split b = i_max_split s ->
    tree_inv b t -> exhausted b t n -> In x (i_X s) -> In x' (i_X s) ->
    traverse_tree x (t_var t) (t_split t) = n -> traverse_tree x' (t_var t) (t_split t) = n ->
    forall w, 0 <= w < p -> entry x w = entry x' w.
  Proof.
    intros b t n x x' I EX EM T E Hx Hx' Tx Tx' w Hw.
    specialize (E w). unfold bp in E. rewrite EM in E. specialize (E Hw). cbv zeta in E.
    assert (V : forall z, In z (i_X s) -> traverse_tree z (t_var t) (t_split t) = n ->
      fst (bounds (t_var t) (t_split t) w (entry (i_max_split s) w) (Z.to_pos n)) <= entry z w <
      snd (bounds (t_var t) (t_split t) w (entry (i_max_split s) w) (Z.to_pos n))).
    { intros z Hz Tz. rewrite <- (gather_entry z w) by auto.
      apply (visits_bounds (gather zmode z)).
      - rewrite gather_entry by auto. now apply Hbin.
      - rewrite <- Tz. pose proof (bd_range b I). eapply route_visits; [| constructor].
        apply (traverse_tree_route (bd b)); [lia | apply T | apply T]. }
    pose proof (V x Hx Tx). pose proof (V x' Hx' Tx'). lia.
  Qed.

  Definition vars_ok (t : tree) : Prop :=
    forall i, decision (t_split t) i -> 0 <= entry (t_var t) i < p.

  Lemma vars_reached : forall b, reached s b -> forall t, In t (trees b) -> vars_ok t.
  Proof.
    intros b R. induction R as [| b g k rl R IH].
    - intros t Ht i D. unfold init_of, init in Ht. cbn [trees] in Ht. apply In_full in Ht.
      subst t. cbn [t_split] in D. now apply no_decision_full0 in D.
    - pose proof (reached_inv s OK b R) as I.
      destruct (reached_fields s b R) as (EX & _ & EM & Emp & _).
      destruct (step_outcome b I k) as (l & M & T & _ & _ & _ & _ & O).
      intros t' Ht'. rewrite T in Ht'. apply in_map_iff in Ht'. destruct Ht' as ([it a] & <- & Hin).
      destruct (O it a Hin) as (Ht & TI & _ & EV & OC). specialize (IH _ Ht).
      set (km := KSplit (KSplit k 2 1) 2 1) in *. set (ka := KSplit (KSplit k 2 1) 2 0) in *.
      set (m := move_of b km it) in *. set (t := snd it) in *.
      destruct (move_of_cases b km it (in_setup _ I) TI) as (H1 & H2 & H3 & H4 & _).
      fold m t in H1, H2, H3, H4.
      pose proof H2 as (V1 & V2 & V3 & V4).
      intros i D. rewrite EV.
      change (new_tree b km ka (it, a)) with
        (final_tree (split_bits b) (parallel_stage_tree b ka (fst it) t m) a) in D.
      split; [apply V2 |].
      destruct OC as [O1 O2 O3 | OA OG CG OP O1 HV RO OE O2 O3 | OA OG PR O1 O2 O3].
      + rewrite O1 in D. rewrite V4 by auto. now apply IH.
      + rewrite O1 in D.
        pose proof (can_grow_bounds b t _ CG) as Hn.
        destruct (Z.eq_dec i (m_node m)) as [-> | N].
        * rewrite HV, Z.eqb_refl by lia.
          destruct OE as [OE | OE].
          { unfold bp in OE. rewrite EM in OE. exact OE. }
          destruct (Z.lt_ge_cases (m_grow_var m) p) as [L | L]; auto. exfalso.
          destruct (O3 mp) as [M1 M2]; [congruence |].
          rewrite O2 in M1, M2.
          assert (X1 : exists x, In x (X b) /\ traverse_tree x (m_var_tree m)
             (scatter_set (t_split t) (m_node m) (m_grow_split m)) = 2 * m_node m).
          { assert (P1 : 0 < occ (map (fun x => traverse_tree x (m_var_tree m)
             (scatter_set (t_split t) (m_node m) (m_grow_split m))) (X b)) (2 * m_node m)) by lia.
            apply occ_pos in P1. apply in_map_iff in P1. destruct P1 as (x & E & Hx). eauto. }
          assert (X2 : exists x, In x (X b) /\ traverse_tree x (m_var_tree m)
             (scatter_set (t_split t) (m_node m) (m_grow_split m)) = 2 * m_node m + 1).
          { assert (P1 : 0 < occ (map (fun x => traverse_tree x (m_var_tree m)
             (scatter_set (t_split t) (m_node m) (m_grow_split m))) (X b)) (2 * m_node m + 1)) by lia.
            apply occ_pos in P1. apply in_map_iff in P1. destruct P1 as (x & E & Hx). eauto. }
          destruct X1 as (x & Hx & Ex). destruct X2 as (x' & Hx' & Ex').
          pose proof (in_setup _ I) as SO. pose proof (bd_range b I) as Hd.
          pose proof (rule_bound b SO t _ _ _ RO (can_grow_bounds b t _ CG)) as HS1.
          rewrite (grown_traverse b SO t TI m H2 CG HV (or_introl RO) ltac:(lia)) in Ex, Ex'.
          assert (NC : forall z, traverse_tree z (t_var t) (t_split t) <> 2 * m_node m /\
                                 traverse_tree z (t_var t) (t_split t) <> 2 * m_node m + 1).
          { intros z. pose proof (traverse_leaf (bd b) ltac:(lia) z (t_var t) (t_split t)
              (ti_var _ _ TI) (ti_split _ _ TI)) as [Rz _].
            split; intros E; rewrite E in Rz;
              apply (ND_child b t TI m CG) in Rz; auto; lia. }
          destruct (Z.eqb_spec (traverse_tree x (t_var t) (t_split t)) (m_node m)) as [F1 | F1];
            [| now apply NC in Ex].
          destruct (Z.eqb_spec (traverse_tree x' (t_var t) (t_split t)) (m_node m)) as [F2 | F2];
            [| now apply NC in Ex'].
          rewrite EX in Hx, Hx'.
          rewrite (gather_oob x x' (m_grow_var m)) in Ex; auto.
          -- destruct (m_grow_split m <=? _); cbn [b2z] in *; lia.
          -- now apply (exhausted_same b t (m_node m)).
        * rewrite (set_node_decision (t_split t) _ (m_node m) (m_grow_split m)) in D; auto.
          -- rewrite V4 by auto. now apply IH.
          -- apply (gsp_set b t TI m CG).
      + assert (i <> m_node m).
        { intros ->. destruct D as [_ D]. rewrite O1 in D.
          rewrite (psp_set b t m PR) in D; [| destruct PR as [[? _] _]; lia].
          rewrite Z.eqb_refl in D. auto. }
        rewrite O1 in D.
        rewrite (set_node_decision (t_split t) _ (m_node m) 0) in D; auto.
        * rewrite V4 by auto. now apply IH.
        * now apply (psp_set b).
  Qed.

  (** a subtree below a node of a reached state contains a leaf *)
  Lemma leaf_under : forall sp i, (forall j, decision sp j -> j < zlen sp) ->
    reachable sp i -> exists j, under i j /\ leaf_node sp j.
  Proof.
    intros sp i Hb R. remember (Z.to_nat (zlen sp - i)) as n eqn:En.
    revert i R En. induction n as [n IH] using lt_wf_ind; intros i R En.
    destruct (decision_dec sp i) as [D | N].
    - pose proof (Hb i D). pose proof (reachable_pos _ _ R).
      destruct (IH (Z.to_nat (zlen sp - 2 * i)) ltac:(lia) (2 * i) ltac:(now constructor) eq_refl)
        as (j & U & L).
      exists j. split; auto. right. exists false. apply child_descends.
      unfold child; cbn [b2z]. now rewrite Z.add_0_r.
    - exists i. split; [now left | split; auto].
  Qed.

  Lemma visits_under : forall x var sp i j b, visits x var sp j -> 1 <= i -> descends i b j ->
    if b : bool then entry sp i <= x (entry var i) else x (entry var i) < entry sp i.
  Proof.
    intros x var sp i j b V Hi. revert b. induction V as [| j V IH D L | j V IH D L]; intros b0 Hd.
    - now apply descends_root in Hd.
    - pose proof (visits_pos _ _ _ _ V). apply descends_left in Hd; auto.
      destruct Hd as [[-> ->] | Hd]; auto. now apply IH.
    - pose proof (visits_pos _ _ _ _ V). apply descends_right in Hd; auto.
      destruct Hd as [[-> ->] | Hd]; auto. now apply IH.
  Qed.

  Theorem rules_reached : forall b, reached s b -> forall t, In t (trees b) ->
    forall i, decision (t_split t) i ->
      0 <= entry (t_var t) i < p /\ valid_rule (t_var t) (t_split t) (i_max_split s) i.
  Proof.
    intros b R t Ht i D. pose proof (vars_reached b R t Ht i D) as V. split; auto.
    pose proof (reached_inv s OK b R) as I. pose proof (in_trees _ I t Ht) as TI.
    destruct (reached_fields s b R) as (EX & _ & EM & Emp & _).
    destruct (ti_rules _ _ TI i D) as [_ [[_ A] | [E0 Hs]]]; [now rewrite EM in A |].
    exfalso. rewrite EM in E0.
    pose proof (ti_stray _ _ TI i D) as Ri. pose proof (reachable_pos _ _ Ri) as Hi.
    assert (D1 : decision (t_split t) 1).
    { destruct (under_root i Hi) as [-> | [b0 H']]; auto. eapply reachable_above; eauto; lia. }
    (* a leaf in the right subtree *)
    destruct (leaf_under (t_split t) (2 * i + 1)) as (j & U & L).
    { intros j Dj. now apply decision_lt. }
    { now constructor. }
    assert (P : 0 < occ (t_idx t) j).
    { pose proof (ti_min _ _ TI mp). rewrite Emp in H. specialize (H Hmp D1 j L). lia. }
    apply occ_pos in P. rewrite (ti_idx _ _ TI), EX in P. apply in_map_iff in P.
    destruct P as (x & Ex & Hx). pose proof (bd_range b I) as Hd.
    assert (Vx : visits (gather zmode x) (t_var t) (t_split t) j).
    { eapply route_visits; [| constructor]. rewrite <- Ex.
      apply (traverse_tree_route (bd b)); [lia | apply TI | apply TI]. }
    assert (Hdj : descends i true j) by (apply child_descends; exact U).
    pose proof (visits_under _ _ _ i j true Vx Hi Hdj) as G. cbv beta iota in G.
    rewrite gather_entry in G by auto. pose proof (Hbin x _ Hx V). lia.
  Qed.
End Valid.

(** ** counters (C12) and changes (C17) *)

Lemma count_map_le : forall A (f g : A -> bool) l,
  (forall x, In x l -> f x = true -> g x = true) ->
  count_nonzero (map f l) <= count_nonzero (map g l).
Proof.
  induction l; intros H; cbn [map]; [lia |]. rewrite !count_nonzero_cons.
  specialize (IHl (fun x Hx => H x (or_intror Hx))).
  pose proof (H a (or_introl eq_refl)). destruct (f a), (g a); cbn [b2z]; try lia;
  discriminate H0; auto.
Qed.

Lemma count_map_disjoint : forall A (f g : A -> bool) l,
  (forall x, In x l -> f x = true -> g x = false) ->
  count_nonzero (map f l) + count_nonzero (map g l) <= zlen l.
Proof.
  induction l; intros H; cbn [map]; [rewrite zlen_nil; apply Z.le_refl |].
  rewrite !count_nonzero_cons, zlen_cons.
  specialize (IHl (fun x Hx => H x (or_intror Hx))).
  pose proof (H a (or_introl eq_refl)). destruct (f a), (g a); cbn [b2z]; try lia;
  discriminate H0; auto.
Qed.

Lemma count_map_cover : forall A (f g : A -> bool) l,
  (forall x, In x l -> f x = true \/ g x = true) ->
  zlen l <= count_nonzero (map f l) + count_nonzero (map g l).
Proof.
  induction l; intros H; cbn [map]; [rewrite zlen_nil; apply Z.le_refl |].
  rewrite !count_nonzero_cons, zlen_cons.
  specialize (IHl (fun x Hx => H x (or_intror Hx))).
  destruct (H a (or_introl eq_refl)) as [-> | ->]; cbn [b2z];
    [destruct (g a) | destruct (f a)]; cbn [b2z]; lia.
Qed.

Lemma nth_error_map_inv : forall A B (f : A -> B) l j z,
  nth_error (map f l) j = Some z -> exists x, nth_error l j = Some x /\ f x = z.
Proof.
  induction l; intros j z H; destruct j; cbn in *; try discriminate.
  - injection H as <-. eauto.
  - eauto.
Qed.

Section Counters.
  Context {fo : fops} {zo : zoob} {foo : foob fo} {fl : flaws fo}.
  Context {g : rng fo} {rl : rlaws g}.
  Variable b : bart.
  Hypothesis I : inv b.
  Variable k : key.

  Lemma counters_bounds : let b' := step b k in
    0 <= grow_acc_count b' <= grow_prop_count b' /\
    0 <= prune_acc_count b' <= prune_prop_count b' /\
    grow_prop_count b' + prune_prop_count b' <= zlen (trees b) /\
    ((forall t, In t (trees b) -> (exists i, growable b t i) \/ decision (t_split t) 1) ->
     grow_prop_count b' + prune_prop_count b' = zlen (trees b)).
  Proof.
    cbv zeta. destruct (step_outcome b I k) as (l & M & T & C1 & C2 & C3 & C4 & O).
    rewrite C1, C2, C3, C4.
    set (km := KSplit (KSplit k 2 1) 2 1) in *. set (ka := KSplit (KSplit k 2 1) 2 0) in *.
    assert (L : zlen l = zlen (trees b)) by (rewrite <- (zlen_map _ _ fst l), M; apply zlen_enumerate).
    assert (D : forall x, In x l -> m_grow (move_of b km (fst x)) = true ->
      m_allowed (move_of b km (fst x)) && negb (m_grow (move_of b km (fst x))) = false).
    { intros x _ E. rewrite E. apply andb_false_r. }
    split; [split; [apply count_nonzero_nonneg |] |].
    { apply count_map_le. intros x _ H. now apply andb_true_iff in H. }
    split; [split; [apply count_nonzero_nonneg |] |].
    { apply count_map_le. intros [it a] Hx H. apply andb_true_iff in H. cbn [fst snd] in *.
      destruct (O it a Hx) as (_ & _ & HA & _). apply andb_true_iff. split; [| tauto]. apply HA. tauto. }
    split; [rewrite <- L; now apply count_map_disjoint |].
    intros H. apply Z.le_antisymm; [rewrite <- L; now apply count_map_disjoint |].
    rewrite <- L. apply count_map_cover. intros [it a] Hx. cbn [fst].
    destruct (O it a Hx) as (Ht & TI & _). specialize (H _ Ht).
    destruct (move_of_cases b km it (in_setup _ I) TI) as (_ & _ & _ & _ & _ & G1 & G2 & G3).
    destruct (m_grow (move_of b km it)) eqn:Eg; auto. right.
    rewrite andb_true_r. destruct (m_allowed (move_of b km it)) eqn:Ea; auto. exfalso.
    destruct (proj1 G3 eq_refl) as [N1 N2]. destruct H as [(i & H) | H]; auto.
    apply (N1 i). now apply growable_can_grow.
  Qed.

  Lemma nth_error_zip : forall (l : list (Z * tree * stage2)) j t,
    map fst l = enumerate (trees b) -> nth_error (trees b) j = Some t ->
    exists i a, nth_error l j = Some ((i, t), a).
  Proof.
    intros l j t M H. rewrite <- (map_snd_enumerate _ (trees b)), <- M in H.
    apply nth_error_map_inv in H. destruct H as ([i t0] & H & E). cbn [snd] in E. subst t0.
    apply nth_error_map_inv in H. destruct H as ([it a] & H & E). cbn [fst] in E. subst it. eauto.
  Qed.

  Lemma step_changes : let b' := step b k in
    length (trees b') = length (trees b) /\
    exists cs : list change,
      length cs = length (trees b) /\
      (forall j t t' c, nth_error (trees b) j = Some t -> nth_error (trees b') j = Some t' ->
         nth_error cs j = Some c ->
         changed c (structure (bd b) (t_var t) (t_split t)) (structure (bd b) (t_var t') (t_split t'))) /\
      ((forall i, 1 <= i < heap_size (bd b) -> zget f0 (p_propose_grow b) i <> f0) ->
       count_nonzero (map is_grown cs) = grow_acc_count b' /\
       count_nonzero (map is_pruned cs) = prune_acc_count b').
  Proof.
    cbv zeta. destruct (step_outcome b I k) as (l & M & T & _ & _ & C3 & C4 & O).
    set (km := KSplit (KSplit k 2 1) 2 1) in *. set (ka := KSplit (KSplit k 2 1) 2 0) in *.
    assert (L : length l = length (trees b)).
    { pose proof (zlen_map _ _ fst l) as E. rewrite M, zlen_enumerate in E. unfold zlen in E. lia. }
    split; [rewrite T, map_length; auto |].
    pose proof (in_setup _ I) as SO. pose proof (bd_range b I) as Hd.
    pose (ch := fun ita : Z * tree * stage2 => let m := move_of b km (fst ita) in
      if a_acc (snd ita) && (m_node m <? heap_size (bd b)) then
        if m_grow m then Grown else Pruned
      else Same).
    exists (map ch l). split; [rewrite map_length; auto |]. split.
    - intros j t t' c Hj Hj' Hc.
      destruct (nth_error_zip l j t M Hj) as (i & a & Hl).
      rewrite T in Hj'. rewrite (map_nth_error _ _ _ Hl) in Hj'. injection Hj' as <-.
      rewrite (map_nth_error _ _ _ Hl) in Hc. injection Hc as <-.
      destruct (O (i, t) a (nth_error_In _ _ Hl)) as (Ht & TI & _ & EV & OC). cbn [fst snd] in *.
      destruct (move_of_cases b km (i, t) SO TI) as (H1 & H2 & H3 & H4 & _).
      unfold ch. cbn [fst snd] in *. set (m := move_of b km (i, t)) in *.
      destruct H2 as (V1 & V2 & V3 & V4).
      rewrite EV.
      change (new_tree b km ka (i, t, a)) with
        (final_tree (split_bits b) (parallel_stage_tree b ka i t m) a).
      pose proof (ti_split _ _ TI) as Hsl.
      assert (Hlv : zlen (t_split t) <= 1 * 2 ^ Z.of_nat (Z.to_nat (bd b) - 1)).
      { rewrite Hsl. unfold heap_size. replace (Z.of_nat (Z.to_nat (bd b) - 1)) with (bd b - 1) by lia. lia. }
      destruct OC as [O1 O2 O3 | OA OG CG OP O1 HV RO OE O2 O3 | OA OG PR O1 O2 O3].
      + replace (a_acc a && (m_node m <? heap_size (bd b))) with false.
        * cbn [changed]. unfold structure. apply decode_ext; [lia | |]; intros j0 Hj0.
          -- now rewrite O1.
          -- auto.
        * symmetry. destruct (a_acc a); auto. cbn [andb]. apply Z.ltb_ge. auto.
      + pose proof (can_grow_bounds b t _ CG) as Hn. rewrite OA, OG.
        rewrite (proj2 (Z.ltb_lt _ _)) by lia. cbn [andb changed].
        unfold structure. rewrite O1. pose proof CG as ((R & ND) & _).
        apply (decode_grow _ _ _ _ (m_node m) (m_grow_split m)); auto; try lia.
        * apply (gsp_set b t TI m CG).
        * pose proof (rule_bound b SO t (m_node m) (m_grow_var m) (m_grow_split m) RO Hn). lia.
        * apply not_decision_0; [lia |]. apply (ND_child b t TI m CG); lia.
        * apply not_decision_0; [lia |]. apply (ND_child b t TI m CG); lia.
        * apply under_root. lia.
      + destruct PR as (Dn & Dl & Dr). pose proof (decision_lt _ _ Dn) as Hn.
        pose proof (proj1 Dn) as Hn1. pose proof (psp_set b t m (conj Dn (conj Dl Dr))) as PS.
        rewrite OA, OG. rewrite (proj2 (Z.ltb_lt _ _)) by lia. cbn [andb changed].
        unfold structure. rewrite O1.
        set (sp' := scatter_set (t_split t) (m_node m) 0) in *.
        assert (ND : ~ decision sp' (m_node m)).
        { intros [_ D]. rewrite PS in D by lia. rewrite Z.eqb_refl in D. auto. }
        assert (Hsl' : zlen sp' = zlen (t_split t)) by apply zlen_scatter_set.
        apply (decode_grow _ _ _ _ (m_node m) (entry (t_split t) (m_node m))); auto; try lia.
        * intros q Hq. rewrite PS by lia. destruct (Z.eqb_spec q (m_node m)) as [-> | _]; auto.
        * apply Dn.
        * pose proof (ti_stray _ _ TI _ Dn) as R.
          assert (G : forall q, reachable (t_split t) q -> under q (m_node m) -> reachable sp' q).
          { intros q Rq. induction Rq as [| q Rq IH D | q Rq IH D]; intros U; [constructor | |].
            - apply reach_left.
              + apply IH. right. exists false. apply child_descends. unfold child. cbn [b2z].
                now rewrite Z.add_0_r.
              + apply (set_node_decision (t_split t) sp' (m_node m) 0); auto.
                pose proof (proj1 D). destruct U as [U | [b0 U]]; [lia |].
                apply descends_gt in U; lia.
            - apply reach_right.
              + apply IH. right. exists true. apply child_descends. exact U.
              + apply (set_node_decision (t_split t) sp' (m_node m) 0); auto.
                pose proof (proj1 D). destruct U as [U | [b0 U]]; [lia |].
                apply descends_gt in U; lia. }
          apply G; auto. now left.
        * rewrite PS by lia. destruct (Z.eqb_spec (2 * m_node m) (m_node m)); auto.
          apply not_decision_0; auto; lia.
        * rewrite PS by lia. destruct (Z.eqb_spec (2 * m_node m + 1) (m_node m)); auto.
          apply not_decision_0; auto; lia.
        * intros q D. symmetry. apply V4. destruct D as [Hq D].
          rewrite PS in D by lia. destruct (q =? m_node m); [congruence | now split].
        * now apply under_root.
    - intros Hpos. rewrite C3, C4, !map_map.
      assert (A : forall it a, In (it, a) l -> a_acc a = true ->
        m_node (move_of b km it) < heap_size (bd b)).
      { intros it a Hin Ha. destruct (O it a Hin) as (Ht & TI & HA & EV & OC).
        destruct (move_of_cases b km it SO TI) as (H1 & _ & _ & _ & _ & G1 & _).
        specialize (HA Ha). destruct H1 as [MG MA CG GP HV RO EX | MG MA PR D1 | N1 N2 N3 N4 N5].
        - pose proof (can_grow_bounds b _ _ CG). lia.
        - destruct PR as (Dn & _). pose proof (decision_lt _ _ Dn).
          pose proof (ti_split _ _ TI). lia.
        - exfalso. destruct (m_grow (move_of b km it)) eqn:Eg.
          + destruct (G1 eq_refl) as (i & G). destruct (N4 eq_refl) as [_ N6].
            apply (Hpos i); [| auto]. exact (can_grow_bounds b _ _ G).
          + specialize (N3 eq_refl). congruence. }
      split; f_equal; apply map_ext_in; intros [it a] Hin; unfold ch; cbn [fst snd];
        specialize (A it a Hin); destruct (a_acc a); cbn [andb]; auto;
        rewrite (proj2 (Z.ltb_lt _ _)) by auto; destruct (m_grow (move_of b km it)); auto.
  Qed.
End Counters.

(** ** proposals (C12) *)
Section Moves.
  Context {fo : fops} {zo : zoob} {foo : foob fo} {fl : flaws fo}.
  Context {g : rng fo} {rl : rlaws g}.

  Lemma flt_00 : flt f0 f0 = false.
  Proof.
    destruct (flt f0 f0) eqn:E; auto.
    pose proof (rl_unif_to_lt (KRoot 0) f0 E) as H1.
    pose proof (rl_unif_to_ge (KRoot 0) f0 fl_0_nonneg) as H2. congruence.
  Qed.

  Lemma ppg_positive : forall s b, settings_ok s -> reached s b ->
    (forall x, In x (i_p_nonterminal s) -> flt f0 x = true) ->
    forall i, 1 <= i < heap_size (bd b) -> zget f0 (p_propose_grow b) i <> f0.
  Proof.
    intros s b OK R Hp i Hi. pose proof (reached_inv s OK b R) as I. pose proof (bd_range b I) as Hd.
    destruct (reached_fields s b R) as (_ & _ & _ & _ & ED & EP & _).
    rewrite (so_ppg _ (in_setup _ I)) by auto. rewrite EP.
    unfold init_of, init. cbn [p_nonterminal].
    assert (0 <= Z.log2 i < zlen (i_p_nonterminal s)).
    { split; [apply Z.log2_nonneg |]. apply Z.log2_lt_pow2; [lia |].
      unfold heap_size in Hi. rewrite ED in Hi. unfold depth_of in Hi.
      replace (zlen (i_p_nonterminal s) + 1 - 1) with (zlen (i_p_nonterminal s)) in Hi by lia. lia. }
    rewrite zget_app_l by auto. intros E.
    pose proof (Hp _ (zget_In _ f0 _ _ H)) as P. rewrite E, flt_00 in P. discriminate.
  Qed.

  Lemma root_decision : forall b t, inv b -> In t (trees b) ->
    (decision (t_split t) 1 <-> exists i, decision (t_split t) i).
  Proof.
    intros b t I Ht. split; [eauto |]. intros [i D]. pose proof (in_trees _ I t Ht) as T.
    pose proof (ti_stray _ _ T i D) as Ri. pose proof (reachable_pos _ _ Ri).
    destruct (under_root i) as [-> | [b0 H']]; auto. eapply reachable_above; eauto; lia.
  Qed.

  Lemma nth_error_enumerate : forall A (l : list A) j x, nth_error l j = Some x ->
    nth_error (enumerate l) j = Some (Z.of_nat j, x).
  Proof.
    intros A l j x H.
    assert (Hj : (j < length l)%nat) by (apply nth_error_Some; congruence).
    assert (E : forall (a : list Z) (l : list A) j u x, nth_error a j = Some u -> nth_error l j = Some x ->
      nth_error (combine a l) j = Some (u, x)).
    { induction a; intros l0 j0 u x0 Hu Hx; destruct j0, l0; cbn in *; try discriminate; auto.
      congruence. }
    apply E; auto. unfold arange. rewrite nth_error_map.
    rewrite (nth_error_nth' _ 0%nat) by (rewrite seq_length; unfold zlen; lia).
    rewrite seq_nth by (unfold zlen; lia). reflexivity.
  Qed.

  Lemma moves_reached : forall s b k j t m, settings_ok s -> reached s b ->
    nth_error (trees b) j = Some t -> nth_error (sample_moves b k) j = Some m ->
    let affluent i := leaf_node (t_split t) i /\ i < 2 ^ (depth_of s - 1) /\
      forall m, i_min_points s = Some m ->
        2 * m <= points_in (depth_of s) (points_of s) (t_var t) (t_split t) i in
    let can_grow := exists i, affluent i in
    let can_prune := exists i, decision (t_split t) i in
    (m_grow m = true -> can_grow) /\
    (m_allowed m = true -> m_grow m = false -> can_prune) /\
    (can_grow -> ~ can_prune -> m_allowed m = true /\ m_grow m = true) /\
    (can_prune -> ~ can_grow -> m_allowed m = true /\ m_grow m = false) /\
    (can_grow \/ can_prune <-> m_allowed m = true) /\
    ((forall x, In x (i_p_nonterminal s) -> flt f0 x = true) -> m_allowed m = true ->
       if m_grow m then affluent (m_node m)
       else decision (t_split t) (m_node m) /\ ~ decision (t_split t) (2 * m_node m) /\
            ~ decision (t_split t) (2 * m_node m + 1)).
  Proof.
    intros s b k j t m OK R Hj Hm affluent. pose proof (reached_inv s OK b R) as I.
    pose proof (nth_error_In _ _ Hj) as Ht. pose proof (in_trees _ I t Ht) as TI.
    destruct (reached_fields s b R) as (EX & _ & _ & Emp & ED & _).
    pose proof (ppg_positive s b OK R) as PP.
    assert (EA : forall i, affluent i <-> can_grow b t i).
    { intros i. rewrite growable_can_grow by auto. unfold affluent, growable, points_of, pts.
      rewrite <- ED, <- EX, <- Emp. reflexivity. }
    rewrite sample_moves_map in Hm.
    rewrite (map_nth_error _ _ _ (nth_error_enumerate _ _ _ _ Hj)) in Hm. injection Hm as <-.
    destruct (move_of_cases b k (Z.of_nat j, t) (in_setup _ I) TI) as (H1 & _ & _ & _ & _ & G1 & G2 & G3).
    set (m := move_of b k (Z.of_nat j, t)) in *. cbn [snd] in *.
    pose proof (root_decision b t I Ht) as RD. cbv zeta. rewrite <- RD.
    assert (EG : (exists i, affluent i) <-> (exists i, can_grow b t i)).
    { split; intros [i H]; exists i; apply EA; auto. }
    rewrite EG.
    assert (GD : m_allowed m = true <-> (exists i, can_grow b t i) \/ decision (t_split t) 1).
    { split.
      - intros Ea. destruct (decision_dec (t_split t) 1) as [D | D]; auto. left.
        apply G1. destruct (m_grow m) eqn:Eg; auto. exfalso.
        destruct H1 as [MG MA CG GP HV RO X | MG MA PR D1 | N1 N2 N3 N4 N5]; [congruence | auto |].
        specialize (N3 Eg). congruence.
      - intros H. destruct (m_allowed m) eqn:Ea; auto. exfalso. destruct (proj1 G3 eq_refl) as [N1 N2].
        destruct H as [[i H] | H]; [apply (N1 i H) | auto]. }
    split; auto. split; [| split; [| split; [| split]]].
    - intros Ea Eg. destruct H1 as [MG MA CG GP HV RO X | MG MA PR D1 | N1 N2 N3 N4 N5]; auto.
      + congruence.
      + specialize (N3 Eg). congruence.
    - intros H N. split; [apply GD; auto | auto].
    - intros H N. split; [apply GD; auto |]. destruct (m_grow m) eqn:Eg; auto. elim N; auto.
    - now rewrite GD.
    - intros Hp Ea. destruct H1 as [MG MA CG GP HV RO X | MG MA PR D1 | N1 N2 N3 N4 N5].
      + rewrite MG. now apply EA.
      + rewrite MG. exact PR.
      + exfalso. destruct (m_grow m) eqn:Eg.
        * destruct (G1 eq_refl) as (i & CG). destruct (N4 eq_refl) as [_ N6].
          apply (PP Hp i); [| auto]. exact (can_grow_bounds b _ _ CG).
        * specialize (N3 eq_refl). congruence.
  Qed.
End Moves.
