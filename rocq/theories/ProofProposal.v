(** The two trees of a proposal: where the datapoints fall. *)
From Coq Require Import ZArith List Bool Lia.
From Verif Require Import Base LemBase ModelJaxext ModelGrove ModelStep SpecTree
  SpecSampling SpecRange SpecForest SpecRun SpecProposal Laws ProofTree ProofSampling ProofRange
  ProofAggregate ProofRoute ProofMoves ProofStep ProofRun ProofForest.
Import ListNotations.
Open Scope Z_scope.
Ltac Zify.zify_post_hook ::= Z.div_mod_to_equations.

Lemma zlen_put : forall l i v, 0 <= i < zlen l -> zlen (put l i v) = zlen l.
Proof.
  intros l i v Hi. unfold put. unfold zlen in *. rewrite app_length. cbn [length].
  rewrite firstn_length, skipn_length. lia.
Qed.

Lemma entry_put : forall l i v j, 0 <= i < zlen l -> 0 <= j ->
  entry (put l i v) j = if j =? i then v else entry l j.
Proof.
  intros l i v j Hi Hj. unfold put, entry. unfold zlen in Hi.
  assert (Lf : length (firstn (Z.to_nat i) l) = Z.to_nat i) by (rewrite firstn_length; lia).
  destruct (Z.eqb_spec j i) as [-> | N].
  - rewrite app_nth2 by lia. rewrite Lf, Nat.sub_diag. reflexivity.
  - destruct (Z.lt_ge_cases j i).
    + rewrite app_nth1 by lia. rewrite <- (firstn_skipn (Z.to_nat i) l) at 2.
      now rewrite app_nth1 by lia.
    + rewrite app_nth2 by lia. rewrite Lf.
      replace (Z.to_nat j - Z.to_nat i)%nat with (S (Z.to_nat j - S (Z.to_nat i))) by lia.
      cbn [nth]. rewrite <- (firstn_skipn (S (Z.to_nat i)) l) at 2.
      assert (Lf' : length (firstn (S (Z.to_nat i)) l) = S (Z.to_nat i)) by (rewrite firstn_length; lia).
      rewrite app_nth2 by lia. now rewrite Lf'.
Qed.

Lemma put_set : forall l i v, 0 <= i < zlen l -> put l i v = scatter_set l i v.
Proof.
  intros l i v Hi. apply (list_ext _ 0).
  - rewrite zlen_put, zlen_scatter_set; auto.
  - rewrite zlen_put by auto. intros j Hj. rewrite zget_scatter_set_gen by lia.
    change (zget 0 (put l i v) j) with (entry (put l i v) j).
    rewrite entry_put by lia. rewrite (Z.eqb_sym i j). reflexivity.
Qed.

Lemma entry_ext : forall l l', zlen l = zlen l' -> (forall i, 0 <= i -> entry l i = entry l' i) -> l = l'.
Proof. intros l l' H E. apply (list_ext _ 0); auto. intros i Hi. apply E. lia. Qed.

Section Proposal.
  Context {fo : fops} {zo : zoob} {foo : foob fo}.
  Variable b : bart.
  Hypothesis SO : setup_ok b.
  Let d := bd b.
  Variable t : tree.
  Hypothesis TI : tree_inv b t.
  Variable m : move.
  Hypothesis MO : move_ok b t m.
  Hypothesis VE : var_ext b t (m_var_tree m).
  Hypothesis ML : m_left m = 2 * m_node m.
  Hypothesis MR : m_right m = 2 * m_node m + 1.
  Let n := m_node m.
  Hypothesis NB : n < heap_size d.
  Let small := small_rules t m.
  Let big := big_rules t m.
  Let gidx := apply_grow_to_indices m (t_idx t) (X b).
  Hypothesis NZ : entry (snd big) n <> 0.

  (** what kind of move *)
  Lemma kinds :
    (m_grow m = true /\ m_allowed m = true /\ can_grow b t n /\
       zget f0 (p_propose_grow b) n <> f0 /\
       big = (m_var_tree m, scatter_set (t_split t) n (m_grow_split m)) /\
       small = (t_var t, t_split t) /\
       (forall i, 0 <= i -> entry (m_var_tree m) i =
           if i =? n then m_grow_var m else entry (t_var t) i) /\
       (rule_ok (max_split b) (t_var t) (t_split t) n (m_grow_var m) (m_grow_split m) \/
        spilled (split_bits b) (max_split b) (t_var t) (t_split t) n (m_grow_var m) (m_grow_split m)) /\
       m_grow_split m <> 0) \/
    (m_grow m = false /\ m_allowed m = true /\ prunable t n /\ decision (t_split t) 1 /\
       big = (t_var t, t_split t) /\ small = (t_var t, scatter_set (t_split t) n 0)).
  Proof.
    pose proof (ti_var _ _ TI) as LV. pose proof (ti_split _ _ TI) as LS. fold d in LV, LS.
    destruct MO as [MG MA CG GP HV RO EX | MG MA PR D1 | N1 N2 N3 N4 N5].
    - left. pose proof (can_grow_bounds b t n CG) as Hnb. fold d in Hnb.
      do 4 (split; auto). unfold big, small, big_rules, small_rules. rewrite MG. fold n. split.
      + f_equal.
        * apply entry_ext.
          -- rewrite zlen_put by lia. rewrite LV. symmetry. apply VE.
          -- intros i Hi. rewrite entry_put by lia. now rewrite HV.
        * apply put_set. lia.
      + split; auto. split; auto. split; auto. clear - NZ MG LS Hnb.
        unfold big, big_rules in NZ. rewrite MG in NZ. cbn [snd] in NZ. fold n in NZ.
        rewrite entry_put, Z.eqb_refl in NZ by lia. auto.
    - right. destruct PR as (Dn & Dl & Dr). pose proof (decision_lt _ _ Dn) as Hnb.
      pose proof (proj1 Dn). fold n in Hnb, H.
      split; auto. split; auto. split; [now split |]. split; auto.
      unfold big, small, big_rules, small_rules. rewrite MG. fold n. split; auto.
      f_equal. apply put_set. lia.
    - fold n d in N1. lia.
  Qed.

  Lemma node_range : 1 <= n < heap_size d.
  Proof.
    destruct kinds as [(_ & _ & CG & _) | (_ & _ & (D & _) & _)].
    - pose proof (can_grow_bounds b t n CG). auto.
    - destruct D. auto.
  Qed.

  Lemma prop_lens : zlen (fst big) = heap_size d /\ zlen (snd big) = heap_size d /\
    zlen (fst small) = heap_size d /\ zlen (snd small) = heap_size d.
  Proof.
    pose proof (ti_var _ _ TI) as LV. pose proof (ti_split _ _ TI) as LS. fold d in LV, LS.
    destruct kinds as [(_ & _ & _ & _ & -> & -> & _) | (_ & _ & _ & _ & -> & ->)]; cbn [fst snd];
      rewrite ?zlen_scatter_set; repeat split; auto. apply VE.
  Qed.

  (** the two split arrays differ at the node only *)
  Lemma split_diff :
    set_node (snd small) (snd big) n (entry (snd big) n) /\
    entry (snd small) n = 0 /\ entry (snd big) n <> 0 /\
    (forall i, decision (snd small) i -> entry (fst big) i = entry (fst small) i).
  Proof.
    pose proof node_range as Hn. pose proof (ti_split _ _ TI) as LS. fold d in LS.
    destruct kinds as [(MG & MA & CG & GP & -> & -> & HV & RO & SN) | (MG & MA & PR & D1 & -> & ->)];
      cbn [fst snd].
    - rewrite entry_scatter, Z.eqb_refl by lia.
      assert (ND : ~ decision (t_split t) n) by (destruct CG as ((_ & N) & _); exact N).
      split; [| split; [| split]].
      + intros i Hi. rewrite entry_scatter by lia. reflexivity.
      + apply not_decision_0; auto; lia.
      + auto.
      + intros i D. pose proof (proj1 D). rewrite HV by lia.
        destruct (Z.eqb_spec i n) as [-> |]; auto. contradiction.
    - destruct PR as ((_ & E) & _). split; [| split; [| split]]; auto.
      + intros i Hi. rewrite entry_scatter by lia. destruct (Z.eqb_spec i n) as [-> |]; auto.
      + rewrite entry_scatter, Z.eqb_refl by lia. auto.
  Qed.

  Lemma children_zero : entry (snd big) (2 * n) = 0 /\ entry (snd big) (2 * n + 1) = 0 /\
    entry (snd small) (2 * n) = 0 /\ entry (snd small) (2 * n + 1) = 0.
  Proof.
    pose proof node_range as Hn. pose proof (ti_split _ _ TI) as LS. fold d in LS.
    assert (E : entry (t_split t) (2 * n) = 0 /\ entry (t_split t) (2 * n + 1) = 0).
    { destruct kinds as [(_ & _ & CG & _ & _ & _ & HV & _) | (_ & _ & (D & Dl & Dr) & _)].
      - split; (apply not_decision_0; [lia |]).
        + apply (ND_child b t TI m CG); lia.
        + apply (ND_child b t TI m CG); lia.
      - split; apply not_decision_0; auto; lia. }
    destruct E as [E1 E2].
    destruct kinds as [(MG & MA & CG & GP & -> & -> & HV & RO & SN) | (MG & MA & PR & D1 & -> & ->)];
      cbn [fst snd]; rewrite !entry_scatter by lia;
      destruct (Z.eqb_spec (2 * n) n), (Z.eqb_spec (2 * n + 1) n); auto; lia.
  Qed.

  Lemma small_stray : no_stray (snd small) /\ leaf_node (snd small) n.
  Proof.
    pose proof node_range as Hn. destruct split_diff as (S & E0 & _).
    destruct children_zero as (_ & _ & C1 & C2).
    assert (ND : ~ decision (snd small) n) by (intros [_ H]; auto).
    destruct kinds as [(MG & MA & CG & GP & _ & Es & _) | (MG & MA & PR & D1 & _ & Es)].
    - rewrite Es in *. cbn [snd] in *. split; [apply TI | apply CG].
    - assert (SN : set_node (t_split t) (snd small) n 0).
      { rewrite Es. cbn [snd]. intros i Hi. rewrite entry_scatter; auto; [| lia].
        rewrite (ti_split _ _ TI). fold d. lia. }
      assert (RP : forall i, reachable (t_split t) i -> i <> 2 * n -> i <> 2 * n + 1 ->
                     reachable (snd small) i).
      { intros i R. induction R as [| i R IH D | i R IH D]; intros N1 N2; [constructor | |].
        - constructor 2.
          + apply IH; intros ->; destruct PR as (_ & P1 & P2); auto.
          + destruct D as [D0 D]. split; auto. rewrite SN by lia. destruct (Z.eqb_spec i n); lia.
        - constructor 3.
          + apply IH; intros ->; destruct PR as (_ & P1 & P2); auto.
          + destruct D as [D0 D]. split; auto. rewrite SN by lia. destruct (Z.eqb_spec i n); lia. }
      assert (PR' := PR). destruct PR' as (Dn & P1 & P2). split.
      + intros i [Di D]. rewrite SN in D by lia. destruct (Z.eqb_spec i n) as [-> | Ni]; [lia |].
        apply RP; [apply TI; split; auto | |]; intros ->; [apply P1 | apply P2]; split; auto.
      + split; auto. apply RP; [now apply TI | lia | lia].
  Qed.

  (** where the datapoints fall *)
  Lemma big_idx : gidx = map (fun x => traverse_tree x (fst big) (snd big)) (X b).
  Proof.
    destruct kinds as [(MG & MA & CG & GP & -> & -> & HV & RO & SN) | (MG & MA & PR & D1 & -> & ->)];
      cbn [fst snd].
    - apply (grow_indices b SO t TI m VE MG CG HV RO SN).
    - unfold gidx. rewrite (nogrow_indices b SO t TI m VE) by now left. apply TI.
  Qed.

  Lemma small_idx : map (collapse n) gidx = map (fun x => traverse_tree x (fst small) (snd small)) (X b).
  Proof.
    pose proof big_idx as BI. pose proof node_range as NR. unfold gidx in *.
    destruct kinds as [(MG & MA & CG & GP & Eb & -> & HV & RO & SN) | (MG & MA & PR & D1 & Eb & ->)];
      rewrite Eb in BI; cbn [fst snd] in *.
    - rewrite BI. etransitivity; [exact (collapse_grown b SO t TI m VE CG HV RO SN) | apply TI].
    - rewrite BI, map_map. apply map_ext. intros x. symmetry. unfold collapse.
      pose proof (so_d _ SO).
      destruct PR as (P1 & P2 & P3).
      assert (Hd : 1 <= d <= 64) by (unfold d; lia).
      refine (traverse_prune d Hd x _ _ _ _ n _ _ _ _ _ _ _ P1 P2 P3); auto; try apply TI; try lia.
      + rewrite zlen_scatter_set. apply TI.
      + intros i Hi. apply entry_scatter; [| lia]. rewrite (ti_split _ _ TI). fold d. lia.
  Qed.

  Lemma node_not_idx : ~ In n gidx.
  Proof.
    rewrite big_idx. intros H. apply in_map_iff in H. destruct H as (x & Ex & _).
    destruct prop_lens as (L1 & L2 & _). pose proof (so_d _ SO).
    pose proof (traverse_leaf d ltac:(unfold d; lia) x _ _ L1 L2) as [_ N]. rewrite Ex in N.
    apply N. pose proof node_range. split; [lia |]. apply split_diff.
  Qed.
End Proposal.
