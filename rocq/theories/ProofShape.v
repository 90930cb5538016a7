(** The structure of a tree determines its arrays at the nodes in use. *)
From Coq Require Import ZArith List Bool Lia Reals Lra.
From Verif Require Import Base LemBase ModelStep SpecTree SpecRange SpecForest SpecPosterior SpecProposal SpecExact
  SpecMH SpecChance Laws ProofTree ProofRange ProofRoute ProofMoves ProofForest ProofProposal ProofTransition ProofChance.
Import ListNotations.
Open Scope Z_scope.

(** ** Decision nodes *)

Fixpoint dnodes (t : dtree unit) (i : Z) : list (Z * Z * Z) :=
  match t with
  | DLeaf _ => []
  | DNode v s l r => (i, v, s) :: dnodes l (2 * i) ++ dnodes r (2 * i + 1)
  end.

Lemma dnodes_under : forall t i j v s, 1 <= i -> In (j, v, s) (dnodes t i) -> under i j.
Proof.
  induction t as [u | v0 s0 l IHl r IHr]; intros i j v s Hi H; [destruct H |].
  cbn [dnodes] in H. destruct H as [H | H]; [injection H as -> _ _; now left |].
  apply in_app_iff in H. destruct H as [H | H].
  - apply IHl in H; [| lia]. apply (under_trans_child i false). unfold child. cbn [b2z]. now rewrite Z.add_0_r.
  - apply IHr in H; [| lia]. now apply (under_trans_child i true).
Qed.

Lemma In_dnodes : forall var sp levels i, no_stray sp -> 1 <= i ->
  zlen sp <= i * 2 ^ Z.of_nat levels -> forall j v s,
  In (j, v, s) (dnodes (decode tt [] var sp levels i) i) <->
  (decision sp j /\ v = entry var j /\ s = entry sp j) /\ under i j.
Proof.
  intros var sp levels i NS. revert i. induction levels as [| levels IH]; intros i Hi Hl j v s.
  - cbn [decode dnodes]. change (2 ^ Z.of_nat 0) with 1 in Hl. split; [intros [] |].
    intros [(D & _) U]. apply decision_lt in D. destruct U as [-> | [b H]]; [lia |].
    apply descends_gt in H; lia.
  - rewrite Nat2Z.inj_succ, Z.pow_succ_r in Hl by lia. cbn [decode].
    assert (AB : forall j, decision sp j -> under i j -> j <> i -> decision sp i).
    { intros k Dk [-> | [b H]] N; [congruence |]. apply (reachable_above sp k i b); auto. }
    destruct (Z.eqb_spec (entry sp i) 0) as [E | E]; cbn [dnodes].
    + split; [intros [] |]. intros [(D & _) U].
      destruct (Z.eq_dec j i) as [-> | N]; [now apply D |].
      pose proof (AB j D U N) as [_ D']. contradiction.
    + assert (D : decision sp i) by (split; auto). cbn [In].
      rewrite in_app_iff, !IH by lia. split.
      * intros [H | [[L U] | [L U]]].
        -- injection H as <- <- <-. split; [auto | now left].
        -- split; auto. apply (under_trans_child i false). unfold child. cbn [b2z]. now rewrite Z.add_0_r.
        -- split; auto. now apply (under_trans_child i true).
      * intros [L U]. destruct (Z.eq_dec j i) as [-> | N].
        -- left. destruct L as (_ & -> & ->). reflexivity.
        -- right. destruct (under_split i j U N); auto.
Qed.

Section Shape.
  Variable d : Z.
  Hypothesis Hd : 1 <= d.

  (** arrays that describe a tree *)
  Definition shape (tr : list Z * list Z) : Prop :=
    zlen (fst tr) = heap_size d /\ zlen (snd tr) = heap_size d /\ no_stray (snd tr) /\ entry (snd tr) 0 = 0.

  (** same rules *)
  Definition alike (tr tr' : list Z * list Z) : Prop :=
    snd tr = snd tr' /\ forall i, decision (snd tr) i -> entry (fst tr) i = entry (fst tr') i.

  Lemma alike_sym : forall tr tr', alike tr tr' -> alike tr' tr.
  Proof. intros tr tr' [E H]. split; auto. rewrite <- E. intros i D. symmetry. auto. Qed.

  Lemma levels_fit : forall sp : list Z, zlen sp = heap_size d -> zlen sp <= 1 * 2 ^ Z.of_nat (Z.to_nat d - 1).
  Proof.
    intros sp H. rewrite H. unfold heap_size. replace (Z.of_nat (Z.to_nat d - 1)) with (d - 1) by lia. lia.
  Qed.

  Lemma In_structure : forall tr, shape tr -> forall j v s,
    In (j, v, s) (dnodes (structure_of d tr) 1) <->
    decision (snd tr) j /\ v = entry (fst tr) j /\ s = entry (snd tr) j.
  Proof.
    intros tr (L1 & L2 & NS & _) j v s. unfold structure_of, structure.
    rewrite In_dnodes; auto; [| lia | now apply levels_fit]. split; [tauto |].
    intros H. split; auto. apply under_root. destruct H as [D _]. apply D.
  Qed.

  Lemma dnodes_alike : forall tr tr', shape tr -> shape tr' ->
    (forall x, In x (dnodes (structure_of d tr) 1) <-> In x (dnodes (structure_of d tr') 1)) -> alike tr tr'.
  Proof.
    intros tr tr' S S' H.
    assert (Q : forall j, decision (snd tr) j -> entry (snd tr) j = entry (snd tr') j /\ entry (fst tr) j = entry (fst tr') j).
    { intros j D. destruct (proj1 (In_structure tr' S' j (entry (fst tr) j) (entry (snd tr) j))) as (_ & A & B); auto.
      apply H. now apply In_structure. }
    assert (Q' : forall j, decision (snd tr') j -> decision (snd tr) j).
    { intros j D. destruct (proj1 (In_structure tr S j (entry (fst tr') j) (entry (snd tr') j))) as (A & _); auto.
      apply H. now apply In_structure. }
    destruct S as (L1 & L2 & NS & Z0), S' as (L1' & L2' & NS' & Z0'). split; [| intros i D; now apply Q].
    apply entry_ext; [congruence |]. intros i Hi.
    destruct (Z.eq_dec i 0) as [-> | N]; [congruence |].
    destruct (decision_dec (snd tr) i) as [D | D]; [now apply Q |].
    rewrite (proj1 (not_decision_0 (snd tr) i ltac:(lia)) D). symmetry.
    apply not_decision_0; [lia |]. intros D'. apply D. now apply Q'.
  Qed.

  Lemma structure_alike : forall tr tr', shape tr -> shape tr' ->
    structure_of d tr = structure_of d tr' -> alike tr tr'.
  Proof. intros tr tr' S S' E. apply dnodes_alike; auto. intros x. now rewrite E. Qed.

  Lemma alike_structure : forall tr tr', alike tr tr' -> structure_of d tr = structure_of d tr'.
  Proof.
    intros tr tr' [E H]. unfold structure_of, structure. symmetry. apply decode_ext; [lia | |].
    - intros j _. now rewrite E.
    - intros j _ D. symmetry. auto.
  Qed.

  (** ** Quantities that depend on the rules only *)

  Lemma leaf_of_ext : forall x var var' sp levels i, 1 <= i ->
    (forall j, decision sp j -> entry var j = entry var' j) ->
    leaf_of levels x var sp i = leaf_of levels x var' sp i.
  Proof.
    intros x var var' sp. induction levels as [| levels IH]; intros i Hi H; cbn [leaf_of]; auto.
    destruct (Z.eqb_spec (entry sp i) 0); auto. rewrite (H i) by (split; auto).
    rewrite !IH by (auto; lia). reflexivity.
  Qed.

  Lemma alike_leaf : forall x tr tr', alike tr tr' ->
    leaf_of (Z.to_nat d - 1) x (fst tr) (snd tr) 1 = leaf_of (Z.to_nat d - 1) x (fst tr') (snd tr') 1.
  Proof. intros x tr tr' [E H]. rewrite <- E. apply leaf_of_ext; auto. lia. Qed.

  Lemma alike_points : forall pts tr tr' i, alike tr tr' ->
    points_in d pts (fst tr) (snd tr) i = points_in d pts (fst tr') (snd tr') i.
  Proof.
    intros pts tr tr' i A. unfold points_in. do 2 f_equal. apply filter_ext. intros x.
    now rewrite (alike_leaf x tr tr' A).
  Qed.

  Lemma alike_growing : forall pts mp tr tr', alike tr tr' ->
    growing_leaves d pts mp tr = growing_leaves d pts mp tr'.
  Proof.
    intros pts mp tr tr' A. unfold growing_leaves. rewrite <- (proj1 A). apply filter_ext. intros i.
    f_equal. destruct mp; auto. pose proof (alike_points pts tr tr' i A) as E. rewrite <- (proj1 A) in E.
    now rewrite E.
  Qed.

  Lemma alike_prior : forall p w tr tr', alike tr tr' -> prior d p w tr = prior d p w tr'.
  Proof. intros p w tr tr' A. unfold prior. now rewrite (alike_structure _ _ A). Qed.

  Lemma alike_q_prune : forall pts mp tr tr', alike tr tr' -> q_prune d pts mp tr = q_prune d pts mp tr'.
  Proof.
    intros pts mp tr tr' A. unfold q_prune, prob_prune.
    now rewrite (alike_structure _ _ A), (alike_growing pts mp _ _ A).
  Qed.

  Lemma above_ext_desc_pos : forall var sp var' sp' q,
    (forall a b, 1 <= a -> descends a b (Zpos q) -> entry var' a = entry var a /\ entry sp' a = entry sp a) ->
    above_pos var' sp' q = above_pos var sp q.
  Proof.
    intros var sp var' sp'. induction q as [q IH | q IH |]; intros H; cbn [above_pos]; auto.
    - rewrite IH by (intros a b Ha Hb; apply (H a b); auto; now apply desc_xI).
      destruct (H (Zpos q) true ltac:(lia) (desc_xI0 q)) as [-> ->]. reflexivity.
    - rewrite IH by (intros a b Ha Hb; apply (H a b); auto; now apply desc_xO).
      destruct (H (Zpos q) false ltac:(lia) (desc_xO0 q)) as [-> ->]. reflexivity.
  Qed.

  Lemma above_ext_desc : forall var sp var' sp' i, 1 <= i ->
    (forall a b, 1 <= a -> descends a b i -> entry var' a = entry var a /\ entry sp' a = entry sp a) ->
    above var' sp' i = above var sp i.
  Proof. intros. unfold above. apply above_ext_desc_pos. rewrite Z2Pos.id by lia. auto. Qed.

  Lemma alike_above : forall tr tr' n, alike tr tr' -> reachable (snd tr) n ->
    above (fst tr) (snd tr) n = above (fst tr') (snd tr') n.
  Proof.
    intros tr tr' n [E H] R. apply above_ext_desc; [eapply reachable_pos; eauto |].
    intros a b Ha Hb. rewrite <- E. split; auto. apply H. eapply reachable_above; eauto.
  Qed.

  Lemma alike_q_grow : forall pts mp p w tr tr' n v c, alike tr tr' -> reachable (snd tr) n ->
    q_grow d pts mp p w tr n v c = q_grow d pts mp p w tr' n v c.
  Proof.
    intros pts mp p w tr tr' n v c A R. unfold q_grow, prob_grow.
    now rewrite (alike_structure _ _ A), (alike_growing pts mp _ _ A), (alike_above _ _ n A R).
  Qed.

  Lemma alike_likelihood : forall pv s2 others data tr tr' M, alike tr tr' ->
    is_tree_likelihood d pv s2 others data tr M -> is_tree_likelihood d pv s2 others data tr' M.
  Proof.
    intros pv s2 others data tr tr' M A (f & H & ->). exists f. rewrite <- (proj1 A). split; auto.
    intros i Hi. specialize (H i Hi). unfold leaf_residuals in *.
    rewrite (filter_ext _ (fun xy => leaf_of (Z.to_nat d - 1) (fst xy) (fst tr') (snd tr') 1 =? i)) in H.
    - rewrite <- (proj1 A) in H. exact H.
    - intros xy. now rewrite (alike_leaf _ _ _ A).
  Qed.

  (** ** Growth *)

  Lemma grows_dnodes : forall t t', grows_to t t' -> forall i, 1 <= i ->
    exists n v s, under i n /\ (forall v' s', ~ In (n, v', s') (dnodes t i)) /\
      forall x, In x (dnodes t' i) <-> In x (dnodes t i) \/ x = (n, v, s).
  Proof.
    induction 1 as [v s | v s l l' r G IH | v s l r r' G IH]; intros i Hi.
    - exists i, v, s. split; [now left |]. split; [intros v' s' [] |]. intros x. cbn. intuition.
    - destruct (IH (2 * i) ltac:(lia)) as (n & v0 & s0 & U & N & E). exists n, v0, s0. split; [| split].
      + apply (under_trans_child i false). unfold child. cbn [b2z]. now rewrite Z.add_0_r.
      + intros v' s' H. cbn [dnodes] in H. destruct H as [H | H].
        * injection H as -> _ _. destruct U as [U | [b U]]; [lia |]. apply descends_gt in U; lia.
        * apply in_app_iff in H. destruct H as [H | H]; [now apply (N v' s') |].
          apply dnodes_under in H; [| lia]. now apply (under_disjoint i n).
      + intros x. cbn [dnodes In]. rewrite !in_app_iff, E. tauto.
    - destruct (IH (2 * i + 1) ltac:(lia)) as (n & v0 & s0 & U & N & E). exists n, v0, s0. split; [| split].
      + now apply (under_trans_child i true).
      + intros v' s' H. cbn [dnodes] in H. destruct H as [H | H].
        * injection H as -> _ _. destruct U as [U | [b U]]; [lia |]. apply descends_gt in U; lia.
        * apply in_app_iff in H. destruct H as [H | H]; [| now apply (N v' s')].
          apply dnodes_under in H; [| lia]. now apply (under_disjoint i n).
      + intros x. cbn [dnodes In]. rewrite !in_app_iff, E. tauto.
  Qed.

  Section Grown.
    Variables (tr : list Z * list Z) (n v c : Z).
    Hypothesis SH : shape tr.
    Hypothesis LN : leaf_node (snd tr) n.
    Hypothesis Hn : n < heap_size d.
    Hypothesis Hc : c <> 0.
    Let big := (put (fst tr) n v, put (snd tr) n c).

    Lemma leaf_pos : 1 <= n.
    Proof. destruct LN as [R _]. eapply reachable_pos; eauto. Qed.

    Lemma big_var : forall i, 0 <= i -> entry (fst big) i = if i =? n then v else entry (fst tr) i.
    Proof. pose proof leaf_pos. destruct SH as (L1 & _). intros. cbn [fst big]. apply entry_put; lia. Qed.
    Lemma big_split : forall i, 0 <= i -> entry (snd big) i = if i =? n then c else entry (snd tr) i.
    Proof. pose proof leaf_pos. destruct SH as (_ & L2 & _). intros. cbn [snd big]. apply entry_put; lia. Qed.

    Lemma big_decision : forall i, decision (snd big) i <-> decision (snd tr) i \/ i = n.
    Proof.
      pose proof leaf_pos. intros i. unfold decision. split.
      - intros [H1 H2]. rewrite big_split in H2 by lia. destruct (Z.eqb_spec i n); auto.
      - intros [[H1 H2] | ->].
        + split; auto. rewrite big_split by lia. destruct (i =? n); auto.
        + split; auto. rewrite big_split, Z.eqb_refl by lia. auto.
    Qed.

    Lemma big_reachable : forall i, reachable (snd tr) i -> reachable (snd big) i.
    Proof.
      intros i R. induction R as [| i R IH D | i R IH D]; [constructor | constructor 2 | constructor 3]; auto;
        apply big_decision; now left.
    Qed.

    Lemma big_shape : shape big.
    Proof.
      pose proof leaf_pos. destruct SH as (L1 & L2 & NS & Z0). split; [| split; [| split]].
      - cbn [fst big]. rewrite zlen_put; lia.
      - cbn [snd big]. rewrite zlen_put; lia.
      - intros i D. apply big_decision in D. apply big_reachable. destruct D as [D | ->]; [now apply NS | apply LN].
      - rewrite big_split by lia. destruct (Z.eqb_spec 0 n); [lia | auto].
    Qed.

    Lemma big_above : forall i, reachable (snd tr) i -> above (fst big) (snd big) i = above (fst tr) (snd tr) i.
    Proof.
      intros i R. apply above_ext_desc; [eapply reachable_pos; eauto |]. intros a b Ha Hb.
      assert (D : decision (snd tr) a) by (eapply reachable_above; eauto).
      rewrite big_var, big_split by lia. destruct (Z.eqb_spec a n) as [-> |]; auto. now apply LN in D.
    Qed.

    Lemma big_nodes : forall j x y, In (j, x, y) (dnodes (structure_of d big) 1) <->
      In (j, x, y) (dnodes (structure_of d tr) 1) \/ (j, x, y) = (n, v, c).
    Proof.
      pose proof leaf_pos. intros j x y. rewrite !In_structure, big_decision by (auto using big_shape). split.
      - intros (D & -> & ->). assert (1 <= j) by (destruct D as [[] | ->]; lia).
        rewrite big_var, big_split by lia. destruct (Z.eqb_spec j n) as [-> | N]; [now right |].
        left. destruct D as [D | D]; [auto | contradiction].
      - intros [(D & -> & ->) | E].
        + pose proof (proj1 D). rewrite big_var, big_split by lia. split; auto.
          destruct (Z.eqb_spec j n) as [-> | N]; auto. now apply LN in D.
        + injection E as -> -> ->. rewrite big_var, big_split, Z.eqb_refl by lia. auto.
    Qed.

    Lemma big_differs : structure_of d big <> structure_of d tr.
    Proof.
      intros E. assert (H : In (n, v, c) (dnodes (structure_of d tr) 1)) by (rewrite <- E; apply big_nodes; now right).
      apply In_structure in H; auto. destruct H as [D _]. now apply LN in D.
    Qed.
  End Grown.

  Lemma big_injective : forall tr n v c n' v' c', shape tr -> leaf_node (snd tr) n -> leaf_node (snd tr) n' ->
    n < heap_size d -> n' < heap_size d -> c <> 0 -> c' <> 0 ->
    structure_of d (put (fst tr) n v, put (snd tr) n c) = structure_of d (put (fst tr) n' v', put (snd tr) n' c') ->
    n = n' /\ v = v' /\ c = c'.
  Proof.
    intros tr n v c n' v' c' S L L' H H' C C' E.
    assert (I : In (n, v, c) (dnodes (structure_of d (put (fst tr) n v, put (snd tr) n c)) 1))
      by (apply big_nodes; auto).
    rewrite E in I. apply big_nodes in I; auto. destruct I as [I | I]; [| now injection I].
    apply In_structure in I; auto. destruct I as [D _]. now apply L in D.
  Qed.

  Section Pruned.
    Variables (tr : list Z * list Z) (n : Z).
    Hypothesis SH : shape tr.
    Hypothesis PN : decision (snd tr) n /\ ~ decision (snd tr) (2 * n) /\ ~ decision (snd tr) (2 * n + 1).
    Let small := (fst tr, put (snd tr) n 0).

    Lemma small_split : forall i, 0 <= i -> entry (snd small) i = if i =? n then 0 else entry (snd tr) i.
    Proof.
      destruct SH as (_ & L2 & _). destruct PN as (D & _). pose proof (decision_lt _ _ D). destruct D.
      intros. cbn [snd small]. apply entry_put; lia.
    Qed.

    Lemma small_decision : forall i, decision (snd small) i <-> decision (snd tr) i /\ i <> n.
    Proof.
      intros i. unfold decision. split.
      - intros [H1 H2]. rewrite small_split in H2 by lia. destruct (Z.eqb_spec i n); [lia | auto].
      - intros [[H1 H2] N]. split; auto. rewrite small_split by lia. destruct (Z.eqb_spec i n); lia.
    Qed.

    Lemma small_reachable : forall i, reachable (snd tr) i -> i <> 2 * n -> i <> 2 * n + 1 -> reachable (snd small) i.
    Proof.
      intros i R. destruct PN as (_ & P1 & P2). induction R as [| i R IH D | i R IH D]; intros N1 N2; [constructor | |].
      - constructor 2; [apply IH; intros -> ; auto |]. apply small_decision. split; auto. lia.
      - constructor 3; [apply IH; intros -> ; auto |]. apply small_decision. split; auto. lia.
    Qed.

    Lemma small_shape : shape small.
    Proof.
      destruct SH as (L1 & L2 & NS & Z0). destruct PN as (D & P1 & P2). pose proof (decision_lt _ _ D).
      pose proof (proj1 D). split; [| split; [| split]]; auto.
      - cbn [snd small]. rewrite zlen_put; lia.
      - intros i Di. apply small_decision in Di. destruct Di as [Di N].
        apply small_reachable; [now apply NS | |]; intros ->; auto.
      - rewrite small_split by lia. destruct (Z.eqb_spec 0 n); [lia | auto].
    Qed.

    Lemma small_leaf : leaf_node (snd small) n /\ 1 <= n < heap_size d.
    Proof.
      destruct SH as (L1 & L2 & NS & Z0). destruct PN as (D & P1 & P2). pose proof (decision_lt _ _ D).
      pose proof (proj1 D). split; [| lia]. split.
      - apply small_reachable; [now apply NS | lia | lia].
      - intros Dn. apply small_decision in Dn. tauto.
    Qed.

    (** growing again gives the original *)
    Lemma regrow : (put (fst small) n (entry (fst tr) n), put (snd small) n (entry (snd tr) n)) = tr.
    Proof.
      destruct SH as (L1 & L2 & NS & Z0). destruct PN as (D & _). pose proof (decision_lt _ _ D). pose proof (proj1 D).
      destruct tr as [var sp]. cbn [fst snd small] in *.
      f_equal; apply entry_ext; rewrite ?zlen_put; rewrite ?zlen_put; try lia; intros i Hi;
        rewrite ?entry_put by (rewrite ?zlen_put; lia); destruct (Z.eqb_spec i n) as [-> |]; auto.
    Qed.
  End Pruned.

  (** a tree obtained by growth *)
  Lemma grown_rules : forall tr tr', shape tr -> shape tr' -> grows_to (structure_of d tr) (structure_of d tr') ->
    exists n, leaf_node (snd tr) n /\ 1 <= n < heap_size d /\
      (decision (snd tr') n /\ ~ decision (snd tr') (2 * n) /\ ~ decision (snd tr') (2 * n + 1)) /\
      alike (put (fst tr) n (entry (fst tr') n), put (snd tr) n (entry (snd tr') n)) tr' /\
      alike tr (fst tr', put (snd tr') n 0).
  Proof.
    intros tr tr' S S' G. destruct (grows_dnodes _ _ G 1 ltac:(lia)) as (n & v & c & U & N & E).
    assert (I : In (n, v, c) (dnodes (structure_of d tr') 1)) by (apply E; now right).
    apply In_structure in I; auto. destruct I as (D' & Ev & Ec).
    assert (ND : ~ decision (snd tr) n).
    { intros D. apply (N (entry (fst tr) n) (entry (snd tr) n)). now apply In_structure. }
    assert (DD : forall j, decision (snd tr') j -> j <> n -> decision (snd tr) j).
    { intros j Dj Nj.
      assert (I : In (j, entry (fst tr') j, entry (snd tr') j) (dnodes (structure_of d tr') 1)) by now apply In_structure.
      apply E in I. destruct I as [I | I]; [| congruence]. apply In_structure in I; auto. apply I. }
    assert (Hn : 1 <= n < heap_size d).
    { pose proof (decision_lt _ _ D'). destruct S' as (_ & L & _). destruct D'. lia. }
    assert (DU : forall j, decision (snd tr) j -> decision (snd tr') j).
    { intros j Dj.
      assert (I : In (j, entry (fst tr) j, entry (snd tr) j) (dnodes (structure_of d tr) 1)) by now apply In_structure.
      assert (I' : In (j, entry (fst tr) j, entry (snd tr) j) (dnodes (structure_of d tr') 1)) by (apply E; now left).
      apply In_structure in I'; auto. apply I'. }
    assert (LN : leaf_node (snd tr) n).
    { split; auto. destruct S' as (_ & _ & NS' & _). destruct S as (_ & _ & NS & _).
      pose proof (NS' n D') as R. inversion R as [E1 | i Ri Di E1 | i Ri Di E1]; [constructor | |].
      - constructor 2; [apply NS | idtac]; apply DD; auto; lia.
      - constructor 3; [apply NS | idtac]; apply DD; auto; lia. }
    assert (CH : forall j, j = 2 * n \/ j = 2 * n + 1 -> ~ decision (snd tr') j).
    { intros j Hj Dj. assert (D : decision (snd tr) j) by (apply DD; auto; lia).
      destruct S as (_ & _ & NS & _). pose proof (NS j D) as R. apply reachable_parent in R; [| lia].
      destruct R as [_ R]. destruct Hj as [-> | ->].
      - replace (2 * n / 2) with n in R by (rewrite Z.mul_comm, Z.div_mul; lia). auto.
      - replace ((2 * n + 1) / 2) with n in R by (rewrite Z.mul_comm, Z.div_add_l; simpl; lia). auto. }
    assert (PN : decision (snd tr') n /\ ~ decision (snd tr') (2 * n) /\ ~ decision (snd tr') (2 * n + 1)) by auto.
    exists n. split; auto. split; auto. split; auto.
    assert (Hc : entry (snd tr') n <> 0) by apply D'. split.
    - apply dnodes_alike; auto; [apply big_shape; auto; lia |].
      intros [[j x] y]. rewrite big_nodes by (auto; lia). rewrite E, Ev, Ec. reflexivity.
    - apply dnodes_alike; auto; [now apply small_shape |].
      intros [[j x] y]. pose proof (small_decision tr' n S' PN) as SD.
      rewrite !In_structure by (auto using small_shape). rewrite SD. cbn [fst snd].
      assert (EN : forall j x y, In (j, x, y) (dnodes (structure_of d tr) 1) <->
        In (j, x, y) (dnodes (structure_of d tr') 1) /\ j <> n).
      { intros j' x' y'. rewrite E. split.
        - intros H. split; [now left |]. intros ->. now apply (N x' y').
        - intros [[H | H] Hj]; auto. injection H as -> _ _. lia. }
      specialize (EN j x y). rewrite !In_structure in EN by auto. rewrite EN. split.
      + intros ((D & -> & ->) & Nj). pose proof (proj1 D). split; [auto |]. split; auto.
        pose proof (small_split tr' n S' PN j ltac:(lia)) as SS. cbn [snd] in SS. rewrite SS.
        destruct (Z.eqb_spec j n); [lia | auto].
      + intros ((D & Nj) & -> & ->). pose proof (proj1 D). split; auto. split; auto. split; auto.
        pose proof (small_split tr' n S' PN j ltac:(lia)) as SS. cbn [snd] in SS. rewrite SS.
        destruct (Z.eqb_spec j n); [lia | auto].
  Qed.

  (** ** The prior of a tree with allowed rules *)

  Definition allowed (bits : Z) (ms : list Z) (tr : list Z * list Z) : Prop :=
    forall i, decision (snd tr) i ->
      In (entry (fst tr) i) (candidates bits ms (above (fst tr) (snd tr) i)) /\
      In (entry (snd tr) i) (cuts ms (above (fst tr) (snd tr) i) (entry (fst tr) i)).

  Lemma rule_probability_pos : forall bits ms ab v c, In v (candidates bits ms ab) -> In c (cuts ms ab v) ->
    (0 < rule_probability bits ms ab v c)%R.
  Proof.
    intros bits ms ab v c Hv Hc. unfold rule_probability.
    destruct (in_dec _ v _); [| contradiction]. destruct (in_dec _ c _); [| contradiction].
    apply Rmult_lt_0_compat; apply Rdiv_lt_0_compat; try lra; apply IZR_lt.
    - destruct (candidates bits ms ab); [contradiction | cbn [length]; lia].
    - destruct (cuts ms ab v); [contradiction | cbn [length]; lia].
  Qed.

  Lemma prior_positive : forall p bits ms tr, allowed bits ms tr ->
    (forall j, 0 <= j < d - 1 -> (0 < p j < 1)%R) -> p (d - 1) = 0%R ->
    (0 < prior d p (rule_probability bits ms) tr)%R.
  Proof.
    intros p bits ms tr A P1 P2. unfold prior, structure_of, structure.
    assert (H : forall levels i, 1 <= i ->
      Z.of_nat (length (above (fst tr) (snd tr) i)) + Z.of_nat levels = d - 1 ->
      (0 < tree_prior p (rule_probability bits ms) (above (fst tr) (snd tr) i)
             (decode tt [] (fst tr) (snd tr) levels i))%R).
    { induction levels as [| levels IH]; intros i Hi H; cbn [decode tree_prior].
      - replace (Z.of_nat (length (above (fst tr) (snd tr) i))) with (d - 1) by lia. rewrite P2. lra.
      - pose proof (P1 (Z.of_nat (length (above (fst tr) (snd tr) i))) ltac:(lia)) as PP.
        destruct (Z.eqb_spec (entry (snd tr) i) 0) as [E | E]; cbn [tree_prior]; [lra |].
        destruct (A i ltac:(split; auto)) as [A1 A2].
        assert (LL : length (above (fst tr) (snd tr) (2 * i)) = S (length (above (fst tr) (snd tr) i)) /\
          length (above (fst tr) (snd tr) (2 * i + 1)) = S (length (above (fst tr) (snd tr) i)))
          by (rewrite above_left, above_right by lia; auto).
        destruct LL as [LL1 LL2].
        rewrite <- above_left, <- above_right by lia.
        repeat apply Rmult_lt_0_compat; try lra; [now apply rule_probability_pos | |]; apply IH; lia. }
    apply (H _ 1); [lia |]. change (above (fst tr) (snd tr) 1) with (@nil (Z * Z * bool)). cbn [length]. lia.
  Qed.

  Lemma allowed_big : forall bits ms tr n v c, shape tr -> leaf_node (snd tr) n -> n < heap_size d -> c <> 0 ->
    allowed bits ms tr -> In v (candidates bits ms (above (fst tr) (snd tr) n)) ->
    In c (cuts ms (above (fst tr) (snd tr) n) v) -> allowed bits ms (put (fst tr) n v, put (snd tr) n c).
  Proof.
    intros bits ms tr n v c S L Hn Hc A Hv Hcc i D. pose proof (proj1 D) as Hi.
    apply big_decision in D; auto.
    assert (R : reachable (snd tr) i).
    { destruct S as (_ & _ & NS & _). destruct D as [D | ->]; [now apply NS | apply L]. }
    pose proof (big_above tr n v c S L Hn i R) as EA.
    pose proof (big_var tr n v c S L Hn i ltac:(lia)) as EV.
    pose proof (big_split tr n v c S L Hn i ltac:(lia)) as ES.
    rewrite EA, EV, ES. destruct (Z.eqb_spec i n) as [-> | N]; auto.
    destruct D as [D | D]; [now apply A | contradiction].
  Qed.

  Lemma allowed_small : forall bits ms tr n, shape tr ->
    decision (snd tr) n /\ ~ decision (snd tr) (2 * n) /\ ~ decision (snd tr) (2 * n + 1) ->
    allowed bits ms tr -> allowed bits ms (fst tr, put (snd tr) n 0).
  Proof.
    intros bits ms tr n S PN A i D. pose proof (small_decision tr n S PN i) as SD. apply SD in D. destruct D as [D N].
    assert (EA : above (fst tr) (put (snd tr) n 0) i = above (fst tr) (snd tr) i).
    { apply above_ext_desc; [apply D |]. intros a b Ha Hb. split; auto.
      pose proof (small_split tr n S PN a ltac:(lia)) as SS. cbn [snd] in SS. rewrite SS.
      destruct (Z.eqb_spec a n) as [-> |]; auto. exfalso.
      destruct S as (_ & _ & NS & _). pose proof (NS i D) as R. apply descends_child in Hb.
      destruct PN as (_ & P1 & P2).
      assert (DC : decision (snd tr) (child n b)).
      { destruct Hb as [<- | [b' Hb]]; auto. eapply reachable_above; eauto. unfold child. destruct b; cbn; lia. }
      unfold child in DC. destruct b; cbn [b2z] in DC; rewrite ?Z.add_0_r in DC; auto. }
    pose proof (small_split tr n S PN i ltac:(destruct D; lia)) as SS. cbn [fst snd] in *.
    rewrite EA, SS. destruct (Z.eqb_spec i n); [lia |]. now apply A.
  Qed.

  Lemma valid_allowed : forall bits ms tr,
    (forall i, decision (snd tr) i -> 0 <= entry (fst tr) i < zlen ms /\ valid_rule (fst tr) (snd tr) ms i) ->
    allowed bits ms tr.
  Proof.
    intros bits ms tr H i D. destruct (H i D) as [V R].
    assert (C : In (entry (snd tr) i) (cuts ms (above (fst tr) (snd tr) i) (entry (fst tr) i)))
      by (apply In_cuts; [apply D | exact R]).
    split; auto. unfold candidates. apply filter_In. split.
    - apply in_map_iff. exists (Z.to_nat (entry (fst tr) i)). unfold zlen in V. split; [lia |]. apply in_seq. lia.
    - apply orb_true_iff. left. apply orb_true_iff. right. apply negb_true_iff, Z.eqb_neq. destruct (cuts _ _ _); [contradiction | cbn [length]; lia].
  Qed.
End Shape.

(** ** Likelihoods are unique *)
From Coquelicot Require Import Coquelicot.

Lemma marginal_unique : forall pv s2 rs x y,
  is_marginal_likelihood pv s2 rs x -> is_marginal_likelihood pv s2 rs y -> x = y.
Proof.
  intros pv s2 rs x y Hx Hy. unfold is_marginal_likelihood in *.
  apply (is_RInt_gen_unique (V := R_CompleteNormedModule)) in Hx.
  apply (is_RInt_gen_unique (V := R_CompleteNormedModule)) in Hy. congruence.
Qed.

Lemma likelihood_unique : forall d pv s2 others data tr x y,
  is_tree_likelihood d pv s2 others data tr x -> is_tree_likelihood d pv s2 others data tr y -> x = y.
Proof.
  intros d pv s2 others data tr x y (f & Hf & ->) (h & Hh & ->). f_equal. apply map_ext_in.
  intros i Hi. eapply marginal_unique; eauto.
Qed.
