(** Prior and proposal probabilities of the two trees of a proposal. *)
From Coq Require Import ZArith List Bool Lia Reals Lra Permutation.
From Verif Require Import Base LemBase ModelJaxext ModelGrove ModelStep SpecTree
  SpecSampling SpecRange SpecForest SpecRun SpecPosterior SpecProposal SpecMH Laws ProofTree
  ProofSampling ProofCategorical ProofRange ProofAggregate ProofRoute ProofMoves ProofStep ProofRun ProofForest
  ProofGauss ProofProposal.
Import ListNotations.
Open Scope Z_scope.
Ltac Zify.zify_post_hook ::= Z.div_mod_to_equations.

(** ** Sums over masks *)

Definition masked (mask : list bool) : list Z := filter (zget false mask) (arange (zlen mask)).

Lemma count_map_filter : forall A (f : A -> bool) l, count_nonzero (map f l) = zlen (filter f l).
Proof.
  induction l; [reflexivity |]. cbn [map filter]. rewrite count_nonzero_cons, IHl.
  destruct (f a); cbn [b2z]; rewrite ?zlen_cons; lia.
Qed.

Lemma map_arange : forall A (d : A) l, map (zget d l) (arange (zlen l)) = l.
Proof.
  intros A d l. pose proof (zlen_nonneg _ l). apply (list_ext _ d).
  - rewrite zlen_map, zlen_arange; lia.
  - rewrite zlen_map, zlen_arange by lia. intros i Hi.
    rewrite (zget_map _ _ _ 0) by (rewrite zlen_arange; lia). now rewrite zget_arange by lia.
Qed.

Lemma count_masked : forall mask, count_nonzero mask = zlen (masked mask).
Proof. intros. unfold masked. rewrite <- count_map_filter. now rewrite map_arange. Qed.

Lemma rsum_filter : forall A (f : A -> bool) (h : A -> R) l,
  rsum (map (fun i => if f i then h i else 0%R) l) = rsum (map h (filter f l)).
Proof.
  intros A f h. unfold rsum. induction l as [| x l IH]; [reflexivity |].
  cbn [map filter fold_right]. rewrite IH. destruct (f x); cbn [map fold_right]; lra.
Qed.

Lemma masked_sum : forall mask (w : list R), zlen mask = zlen w ->
  fold_left Rplus (map2 (fun (b : bool) p => if b then p else 0%R) mask w) 0%R =
  rsum (map (zget 0%R w) (masked mask)).
Proof.
  intros mask w H. rewrite fold_left_Rplus, Rplus_0_l. change Rsum with rsum.
  unfold masked. rewrite <- rsum_filter. f_equal. pose proof (zlen_nonneg _ mask).
  apply (list_ext _ 0%R).
  - rewrite zlen_map2, zlen_map, zlen_arange; lia.
  - rewrite zlen_map2. intros i Hi. rewrite (zget_map2 _ _ _ _ _ false 0%R) by lia.
    rewrite (zget_map _ _ _ 0) by (rewrite zlen_arange; lia). now rewrite zget_arange by lia.
Qed.

Lemma NoDup_arange : forall n, NoDup (arange n).
Proof.
  intros n. unfold arange. apply FinFun.Injective_map_NoDup; [| apply seq_NoDup].
  intros x y H. lia.
Qed.

Lemma In_arange : forall n i, 0 <= n -> (In i (arange n) <-> 0 <= i < n).
Proof.
  intros n i Hn. unfold arange. rewrite in_map_iff. split.
  - intros (x & <- & H). apply in_seq in H. lia.
  - intros H. exists (Z.to_nat i). split; [lia |]. apply in_seq. lia.
Qed.

Lemma masked_perm : forall mask l, NoDup l ->
  (forall i, In i l <-> 0 <= i < zlen mask /\ zget false mask i = true) ->
  Permutation (masked mask) l.
Proof.
  intros mask l ND H. apply NoDup_Permutation; auto.
  - unfold masked. apply NoDup_filter. apply NoDup_arange.
  - intros i. unfold masked. rewrite filter_In, In_arange by apply zlen_nonneg. now rewrite H.
Qed.

(** ** Leaves *)

Lemma under_trans_child : forall i b j, under (child i b) j -> under i j.
Proof. intros i b j H. right. exists b. now apply child_descends. Qed.

Lemma under_split : forall i j, under i j -> j <> i -> under (2 * i) j \/ under (2 * i + 1) j.
Proof.
  intros i j [E | [b H]] N; [congruence |]. apply descends_child in H. unfold child in H.
  destruct b; cbn [b2z] in H; rewrite ?Z.add_0_r in H; auto.
Qed.

Lemma under_left : forall i j, under (2 * i) j -> descends i false j.
Proof. intros. apply child_descends. unfold child. cbn [b2z]. now rewrite Z.add_0_r. Qed.
Lemma under_right : forall i j, under (2 * i + 1) j -> descends i true j.
Proof. intros. apply child_descends. exact H. Qed.
Lemma under_disjoint : forall i j, 1 <= i -> under (2 * i) j -> under (2 * i + 1) j -> False.
Proof.
  intros i j Hi H1 H2. apply under_left in H1. apply under_right in H2.
  pose proof (descends_det _ _ _ Hi H1 _ H2). discriminate.
Qed.

Lemma In_leaves : forall sp levels i, 1 <= i -> zlen sp <= i * 2 ^ Z.of_nat levels ->
  reachable sp i -> forall j, In j (leaves levels sp i) <-> leaf_node sp j /\ under i j.
Proof.
  intros sp. induction levels as [| levels IH]; intros i Hi Hl R j.
  - cbn [leaves]. change (2 ^ Z.of_nat 0) with 1 in Hl.
    assert (ND : forall j, under i j -> ~ decision sp j).
    { intros k U D. apply decision_lt in D. destruct U as [-> | [b H]]; [lia |].
      apply descends_gt in H; lia. }
    split.
    + intros [<- | []]. split; [split; auto; apply ND; now left | now left].
    + intros [[Rj _] [-> | [b H]]]; [now left |].
      exfalso. apply (ND i); [now left |]. eapply reachable_above; eauto.
  - rewrite Nat2Z.inj_succ, Z.pow_succ_r in Hl by lia. cbn [leaves].
    destruct (Z.eqb_spec (entry sp i) 0) as [E | E].
    + split.
      * intros [<- | []]. split; [split; auto; intros [_ D]; auto | now left].
      * intros [[Rj _] [-> | [b H]]]; [now left |].
        exfalso. assert (D : decision sp i) by (eapply reachable_above; eauto). now apply D.
    + assert (D : decision sp i) by (split; auto).
      rewrite in_app_iff. rewrite IH by (try lia; now constructor).
      rewrite IH by (try lia; now constructor). split.
      * intros [[L U] | [L U]]; split; auto.
        -- apply (under_trans_child i false). unfold child. cbn [b2z]. now rewrite Z.add_0_r.
        -- apply (under_trans_child i true). exact U.
      * intros [L U]. destruct (under_split i j U); auto. intros ->. now apply L in D.
Qed.

Lemma NoDup_app_disj : forall A (l l' : list A), NoDup l -> NoDup l' ->
  (forall x, In x l -> In x l' -> False) -> NoDup (l ++ l').
Proof.
  induction l as [| a l IH]; intros l' H1 H2 H3; auto. cbn [app]. inversion H1; subst.
  constructor.
  - rewrite in_app_iff. intros [H | H]; [auto |]. apply (H3 a); auto. now left.
  - apply IH; auto. intros x Hx. apply H3. now right.
Qed.

Lemma NoDup_leaves : forall sp levels i, 1 <= i -> zlen sp <= i * 2 ^ Z.of_nat levels ->
  reachable sp i -> NoDup (leaves levels sp i).
Proof.
  intros sp. induction levels as [| levels IH]; intros i Hi Hl R.
  - cbn [leaves]. repeat constructor; auto.
  - rewrite Nat2Z.inj_succ, Z.pow_succ_r in Hl by lia. cbn [leaves].
    destruct (Z.eqb_spec (entry sp i) 0) as [E | E]; [repeat constructor; auto |].
    assert (D : decision sp i) by (split; auto).
    apply NoDup_app_disj.
    + apply IH; try lia. now constructor.
    + apply IH; try lia. now constructor.
    + intros j H1 H2. apply In_leaves in H1; try lia; [| now constructor].
      apply In_leaves in H2; try lia; [| now constructor].
      apply (under_disjoint i j Hi); tauto.
Qed.

(** ** Decision nodes with two leaves *)

Fixpoint parent_nodes (levels : nat) (sp : list Z) (i : Z) : list Z :=
  match levels with
  | O => []
  | S levels =>
    if entry sp i =? 0 then []
    else if (entry sp (2 * i) =? 0) && (entry sp (2 * i + 1) =? 0) then [i]
    else parent_nodes levels sp (2 * i) ++ parent_nodes levels sp (2 * i + 1)
  end.

Lemma decode_is_leaf : forall var sp levels i, 1 <= i -> zlen sp <= i * 2 ^ Z.of_nat levels ->
  decode tt [] var sp levels i = DLeaf tt <-> entry sp i = 0.
Proof.
  intros var sp levels i Hi Hl. split.
  - destruct levels as [| levels]; cbn [decode].
    + intros _. change (2 ^ Z.of_nat 0) with 1 in Hl. apply entry_over. lia.
    + destruct (Z.eqb_spec (entry sp i) 0); auto. discriminate.
  - now apply decode_leaf.
Qed.

Lemma leaf_parents_nodes : forall var sp levels i, 1 <= i -> zlen sp <= i * 2 ^ Z.of_nat levels ->
  leaf_parents (decode tt [] var sp levels i) = zlen (parent_nodes levels sp i).
Proof.
  intros var sp. induction levels as [| levels IH]; intros i Hi Hl; [reflexivity |].
  rewrite Nat2Z.inj_succ, Z.pow_succ_r in Hl by lia. cbn [decode parent_nodes].
  destruct (Z.eqb_spec (entry sp i) 0) as [E | E]; [reflexivity |].
  pose proof (decode_is_leaf var sp levels (2 * i) ltac:(lia) ltac:(lia)) as L1.
  pose proof (decode_is_leaf var sp levels (2 * i + 1) ltac:(lia) ltac:(lia)) as L2.
  pose proof (IH (2 * i) ltac:(lia) ltac:(lia)) as I1.
  pose proof (IH (2 * i + 1) ltac:(lia) ltac:(lia)) as I2.
  cbn [leaf_parents].
  destruct (decode tt [] var sp levels (2 * i)) as [[] | v1 s1 l1 r1] eqn:E1,
    (decode tt [] var sp levels (2 * i + 1)) as [[] | v2 s2 l2 r2] eqn:E2.
  - rewrite (proj1 L1 eq_refl), (proj1 L2 eq_refl). reflexivity.
  - destruct (Z.eqb_spec (entry sp (2 * i + 1)) 0) as [Z | Z]; [apply L2 in Z; discriminate |].
    rewrite andb_false_r, zlen_app. lia.
  - destruct (Z.eqb_spec (entry sp (2 * i)) 0) as [Z | Z]; [apply L1 in Z; discriminate |].
    cbn [andb]. rewrite zlen_app. lia.
  - destruct (Z.eqb_spec (entry sp (2 * i)) 0) as [Z | Z]; [apply L1 in Z; discriminate |].
    cbn [andb]. rewrite zlen_app. lia.
Qed.

Lemma In_parent_nodes : forall sp levels i, no_stray sp -> 1 <= i ->
  zlen sp <= i * 2 ^ Z.of_nat levels -> forall j,
  In j (parent_nodes levels sp i) <->
  (decision sp j /\ ~ decision sp (2 * j) /\ ~ decision sp (2 * j + 1)) /\ under i j.
Proof.
  intros sp levels i NS. revert i. induction levels as [| levels IH]; intros i Hi Hl j.
  - cbn [parent_nodes]. change (2 ^ Z.of_nat 0) with 1 in Hl. split; [intros [] |].
    intros [(D & _) U]. apply decision_lt in D. destruct U as [-> | [b H]]; [lia |].
    apply descends_gt in H; lia.
  - rewrite Nat2Z.inj_succ, Z.pow_succ_r in Hl by lia. cbn [parent_nodes].
    assert (AB : forall j, decision sp j -> under i j -> j <> i -> decision sp i).
    { intros k Dk [-> | [b H]] N; [congruence |]. apply (reachable_above sp k i b); auto. }
    destruct (Z.eqb_spec (entry sp i) 0) as [E | E].
    + split; [intros [] |]. intros [(D & _) U].
      destruct (Z.eq_dec j i) as [-> | N]; [now apply D |].
      pose proof (AB j D U N) as [_ D']. contradiction.
    + assert (D : decision sp i) by (split; auto).
      destruct (Z.eqb_spec (entry sp (2 * i)) 0) as [E1 | E1],
        (Z.eqb_spec (entry sp (2 * i + 1)) 0) as [E2 | E2]; cbn [andb].
      * split.
        -- intros [<- | []]. split; [| now left]. split; auto. split; intros [_ H]; auto.
        -- intros [(Dj & _) U]. destruct (Z.eq_dec j i) as [-> | N]; [now left |].
           exfalso. destruct (under_split i j U N) as [[-> | [b H]] | [-> | [b H]]].
           ++ now apply Dj.
           ++ assert (DD : decision sp (2 * i)) by (apply (reachable_above sp j _ b); auto; lia).
              now apply DD.
           ++ now apply Dj.
           ++ assert (DD : decision sp (2 * i + 1)) by (apply (reachable_above sp j _ b); auto; lia).
              now apply DD.
      * rewrite in_app_iff, !IH by lia. split.
        -- intros [[L U] | [L U]]; split; auto.
           ++ apply (under_trans_child i false). unfold child. cbn [b2z]. now rewrite Z.add_0_r.
           ++ apply (under_trans_child i true). exact U.
        -- intros [L U]. destruct (under_split i j U); auto. intros ->.
           destruct L as (_ & _ & L). apply L. split; auto. lia.
      * rewrite in_app_iff, !IH by lia. split.
        -- intros [[L U] | [L U]]; split; auto.
           ++ apply (under_trans_child i false). unfold child. cbn [b2z]. now rewrite Z.add_0_r.
           ++ apply (under_trans_child i true). exact U.
        -- intros [L U]. destruct (under_split i j U); auto. intros ->.
           destruct L as (_ & L & _). apply L. split; auto. lia.
      * rewrite in_app_iff, !IH by lia. split.
        -- intros [[L U] | [L U]]; split; auto.
           ++ apply (under_trans_child i false). unfold child. cbn [b2z]. now rewrite Z.add_0_r.
           ++ apply (under_trans_child i true). exact U.
        -- intros [L U]. destruct (under_split i j U); auto. intros ->.
           destruct L as (_ & L & _). apply L. split; auto. lia.
Qed.

Lemma NoDup_parent_nodes : forall sp levels i, no_stray sp -> 1 <= i ->
  zlen sp <= i * 2 ^ Z.of_nat levels -> NoDup (parent_nodes levels sp i).
Proof.
  intros sp levels i NS. revert i. induction levels as [| levels IH]; intros i Hi Hl.
  - constructor.
  - rewrite Nat2Z.inj_succ, Z.pow_succ_r in Hl by lia. cbn [parent_nodes].
    destruct (_ =? 0); [constructor |]. destruct (_ && _); [repeat constructor; auto |].
    apply NoDup_app_disj; try (apply IH; lia).
    intros j H1 H2. apply In_parent_nodes in H1; try lia; auto.
    apply In_parent_nodes in H2; try lia; auto. apply (under_disjoint i j Hi); tauto.
Qed.

(** ** Prior ratio *)

Lemma above_left : forall var sp i, 1 <= i ->
  above var sp (2 * i) = (entry var i, entry sp i, false) :: above var sp i.
Proof.
  intros var sp i Hi. unfold above. destruct i as [| q | q]; try lia. reflexivity.
Qed.
Lemma above_right : forall var sp i, 1 <= i ->
  above var sp (2 * i + 1) = (entry var i, entry sp i, true) :: above var sp i.
Proof.
  intros var sp i Hi. unfold above. destruct i as [| q | q]; try lia. reflexivity.
Qed.
Lemma zlen_above : forall var sp i, 1 <= i -> Z.of_nat (length (above var sp i)) = Z.log2 i.
Proof.
  intros var sp i Hi. unfold above. destruct i as [| q | q]; try lia. cbn [Z.to_pos].
  clear Hi. induction q as [q IH | q IH |]; cbn [above_pos length].
  - rewrite Nat2Z.inj_succ, IH. change (Zpos q~1) with (2 * Zpos q + 1).
    rewrite Z.log2_succ_double by lia. reflexivity.
  - rewrite Nat2Z.inj_succ, IH. change (Zpos q~0) with (2 * Zpos q).
    rewrite Z.log2_double by lia. reflexivity.
  - reflexivity.
Qed.

Lemma prior_grow : forall (p : Z -> R) w var var' sp sp' n, 1 <= n < zlen sp ->
  set_node sp sp' n (entry sp' n) -> entry sp' n <> 0 ->
  reachable sp n -> entry sp n = 0 -> entry sp (2 * n) = 0 -> entry sp (2 * n + 1) = 0 ->
  (forall j, decision sp j -> entry var' j = entry var j) ->
  forall levels i, 1 <= i -> zlen sp <= i * 2 ^ Z.of_nat levels -> under i n ->
  exists C,
    tree_prior p w (above var sp i) (decode tt [] var sp levels i) = (C * (1 - p (Z.log2 n)))%R /\
    tree_prior p w (above var sp i) (decode tt [] var' sp' levels i) =
    (C * (p (Z.log2 n) * w (above var sp n) (entry var' n) (entry sp' n) *
          (1 - p (Z.log2 n + 1)%Z) * (1 - p (Z.log2 n + 1)%Z)))%R.
Proof.
  intros p w var var' sp sp' n Hn S Hs R En E2 E3 V.
  induction levels as [| levels IH]; intros i Hi Hl U.
  - exfalso. change (2 ^ Z.of_nat 0) with 1 in Hl.
    destruct U as [-> | [b H]]; [lia |]. apply descends_gt in H; auto. lia.
  - rewrite Nat2Z.inj_succ, Z.pow_succ_r in Hl by lia.
    destruct (Z.eq_dec i n) as [-> | Ni].
    + exists 1%R. rewrite (decode_leaf var sp) by auto. cbn [decode tree_prior].
      rewrite (proj2 (Z.eqb_neq _ _) Hs).
      rewrite !decode_leaf.
      * cbn [tree_prior length]. rewrite !Nat2Z.inj_succ, zlen_above by lia.
        unfold Z.succ. split; ring.
      * rewrite S by lia. destruct (Z.eqb_spec (2 * n + 1) n); auto. lia.
      * rewrite S by lia. destruct (Z.eqb_spec (2 * n) n); auto. lia.
    + destruct U as [U | [b H]]; [congruence |].
      assert (D : decision sp i) by (eapply reachable_above; eauto).
      cbn [decode]. rewrite (S i) by lia. destruct (Z.eqb_spec i n); [congruence |].
      assert (D' := D). destruct D' as [_ D']. rewrite (proj2 (Z.eqb_neq _ _) D').
      rewrite V by auto.
      assert (O : forall j, under (child i (negb b)) j -> entry sp' j = entry sp j).
      { intros j Hj. assert (j <> n).
        { intros ->. apply child_descends in Hj. pose proof (descends_det _ _ _ Hi H _ Hj) as Eb.
          destruct b; discriminate. }
        assert (1 <= j).
        { apply child_descends in Hj. apply descends_gt in Hj; lia. }
        rewrite S by lia. destruct (Z.eqb_spec j n); auto. congruence. }
      apply descends_child in H. unfold child in H, O.
      cbn [tree_prior]. rewrite <- above_left, <- above_right by lia.
      destruct b; cbn [b2z negb] in H, O.
      * rewrite Z.add_0_r in O. rewrite (decode_ext var var' sp sp' levels (2 * i)); auto; try lia.
        destruct (IH (2 * i + 1) ltac:(lia) ltac:(lia) H) as (C & H1 & H2). rewrite H1, H2.
        exists (p (Z.of_nat (length (above var sp i))) * w (above var sp i) (entry var i) (entry sp i) *
           tree_prior p w (above var sp (2 * i)) (decode tt [] var sp levels (2 * i)) * C)%R.
        split; ring.
      * rewrite Z.add_0_r in H. rewrite (decode_ext var var' sp sp' levels (2 * i + 1)); auto; try lia.
        destruct (IH (2 * i) ltac:(lia) ltac:(lia) H) as (C & H1 & H2). rewrite H1, H2.
        exists (p (Z.of_nat (length (above var sp i))) * w (above var sp i) (entry var i) (entry sp i) *
           tree_prior p w (above var sp (2 * i + 1)) (decode tt [] var sp levels (2 * i + 1)) * C)%R.
        split; ring.
Qed.

(** ** The two trees of a proposal *)

Lemma count_nonzero_perm_len : forall mask l, Permutation (masked mask) l -> count_nonzero mask = zlen l.
Proof. intros. rewrite count_masked. unfold zlen. now rewrite (Permutation_length H). Qed.

Section Generic.
  Context {fo : fops} {zo : zoob} {foo : foob fo}.
  Variable b : bart.
  Hypothesis SO : setup_ok b.
  Let d := bd b.
  Let points := map (gather zmode) (X b).
  Let mp := min_points_per_leaf b.

  Lemma levels_ok : forall sp : list Z, zlen sp = heap_size d -> zlen sp <= 1 * 2 ^ Z.of_nat (Z.to_nat d - 1).
  Proof.
    intros sp H. pose proof (so_d _ SO) as Hd. fold d in Hd. rewrite H. unfold heap_size.
    replace (Z.of_nat (Z.to_nat d - 1)) with (d - 1) by lia. lia.
  Qed.

  Lemma points_in_occ : forall var sp i, zlen var = heap_size d -> zlen sp = heap_size d ->
    points_in d points var sp i = occ (map (fun x => traverse_tree x var sp) (X b)) i.
  Proof.
    intros var sp i Hv Hs. rewrite occ_map_filter. unfold points_in, points.
    assert (E : forall l, length (filter (fun x => leaf_of (Z.to_nat d - 1) x var sp 1 =? i)
                   (map (gather zmode) l)) =
                length (filter (fun x => traverse_tree x var sp =? i) l)).
    { induction l as [| x l IH]; [reflexivity |]. cbn [map filter].
      pose proof (so_d _ SO) as Hd. fold d in Hd.
      rewrite (leaf_of_traverse d x var sp) by (auto; lia).
      destruct (_ =? i); cbn [length]; now rewrite IH. }
    now rewrite E.
  Qed.

  Lemma In_growing : forall tr, zlen (fst tr) = heap_size d -> zlen (snd tr) = heap_size d ->
    forall i, In i (growing_leaves d points mp tr) <->
      leaf_node (snd tr) i /\ i < heap_size d /\
      forall k, mp = Some k -> 2 * k <= occ (map (fun x => traverse_tree x (fst tr) (snd tr)) (X b)) i.
  Proof.
    intros tr Hv Hs i. unfold growing_leaves. rewrite filter_In.
    rewrite In_leaves by (try apply levels_ok; auto; try lia; constructor).
    rewrite andb_true_iff, Z.ltb_lt. fold (heap_size d). split.
    - intros ((L & _) & Hi & H). split; auto. split; auto. intros k Ek. rewrite Ek in H.
      apply Z.leb_le in H. now rewrite points_in_occ in H.
    - intros (L & Hi & H). split; [split; auto |].
      + apply under_root. destruct L as [R _]. now apply reachable_pos in R.
      + split; auto. destruct mp as [k |]; auto. apply Z.leb_le. rewrite points_in_occ; auto.
  Qed.

  Lemma NoDup_growing : forall tr, zlen (snd tr) = heap_size d ->
    NoDup (growing_leaves d points mp tr).
  Proof.
    intros tr Hs. unfold growing_leaves. apply NoDup_filter.
    apply NoDup_leaves; try apply levels_ok; auto; try lia. constructor.
  Qed.

  Lemma parents_count : forall var sp, zlen sp = heap_size d -> no_stray sp ->
    count_nonzero (is_leaves_parent sp) = leaf_parents (structure d var sp).
  Proof.
    intros var sp Hs NS. unfold structure.
    rewrite leaf_parents_nodes by (try apply levels_ok; auto; lia).
    apply count_nonzero_perm_len. apply masked_perm.
    - apply NoDup_parent_nodes; try apply levels_ok; auto; lia.
    - intros i. rewrite In_parent_nodes by (try apply levels_ok; auto; lia).
      pose proof (so_d _ SO) as Hd. fold d in Hd.
      assert (LZ : zlen (is_leaves_parent sp) = zlen sp) by (apply zlen_is_leaves_parent).
      rewrite LZ. split.
      + intros [(D & H) U]. pose proof (decision_lt _ _ D). pose proof (proj1 D).
        split; [lia |]. apply (is_leaves_parent_spec d); auto; lia.
      + intros [Hi H]. apply (is_leaves_parent_spec d) in H; auto; try lia.
        split; auto. apply under_root. apply H.
  Qed.

  Lemma stump_1 : forall var sp, zlen sp = heap_size d -> is_stump (structure d var sp) = (entry sp 1 =? 0).
  Proof.
    intros var sp Hs. unfold structure. pose proof (so_d _ SO) as Hd. fold d in Hd.
    destruct (Z.to_nat d - 1)%nat eqn:E; [lia |]. cbn [decode].
    destruct (entry sp 1 =? 0); reflexivity.
  Qed.

  Variable t : tree.
  Hypothesis TI : tree_inv b t.
  Variable m : move.
  Hypothesis MO : move_ok b t m.
  Hypothesis VE : var_ext b t (m_var_tree m).
  Hypothesis ML : m_left m = 2 * m_node m.
  Hypothesis MR : m_right m = 2 * m_node m + 1.
  Let n := m_node m.
  Hypothesis NB : n < heap_size d.
  Hypothesis NZ : entry (snd (big_rules t m)) (m_node m) <> 0.
  Let small := small_rules t m.
  Let big := big_rules t m.
  Let gidx := apply_grow_to_indices m (t_idx t) (X b).

  Lemma NR : 1 <= n < heap_size d.
  Proof. exact (node_range b t TI m MO VE NB NZ). Qed.
  Lemma PL : zlen (fst big) = heap_size d /\ zlen (snd big) = heap_size d /\
    zlen (fst small) = heap_size d /\ zlen (snd small) = heap_size d.
  Proof. exact (prop_lens b t TI m MO VE NB NZ). Qed.
  Lemma SD : set_node (snd small) (snd big) n (entry (snd big) n) /\
    entry (snd small) n = 0 /\ entry (snd big) n <> 0 /\
    (forall i, decision (snd small) i -> entry (fst big) i = entry (fst small) i).
  Proof. exact (split_diff b t TI m MO VE NB NZ). Qed.
  Lemma CZ : entry (snd big) (2 * n) = 0 /\ entry (snd big) (2 * n + 1) = 0 /\
    entry (snd small) (2 * n) = 0 /\ entry (snd small) (2 * n + 1) = 0.
  Proof. exact (children_zero b t TI m MO VE NB NZ). Qed.
  Lemma SS : no_stray (snd small) /\ leaf_node (snd small) n.
  Proof. exact (small_stray b t TI m MO VE NB NZ). Qed.

  Lemma big_stray : no_stray (snd big).
  Proof.
    pose proof PL as (_ & _ & _ & _). pose proof SS as [NS [R _]]. pose proof SD as (S & E0 & E1 & _).
    pose proof NR as Hn.
    assert (RR : forall i, reachable (snd small) i -> reachable (snd big) i).
    { intros i H. induction H as [| i H IH D | i H IH D]; [constructor | |].
      - constructor 2; auto. destruct D as [D0 D]. split; auto. rewrite S by lia.
        destruct (Z.eqb_spec i n); subst; auto.
      - constructor 3; auto. destruct D as [D0 D]. split; auto. rewrite S by lia.
        destruct (Z.eqb_spec i n); subst; auto. }
    intros i [Di D]. rewrite S in D by lia. destruct (Z.eqb_spec i n) as [-> | N]; auto.
    apply RR. apply NS. split; auto.
  Qed.

  (** leaves of the large tree *)
  Lemma big_leaves : forall i, leaf_node (snd big) i <->
    (leaf_node (snd small) i /\ i <> n) \/ i = 2 * n \/ i = 2 * n + 1.
  Proof.
    pose proof SS as [NS [Rn NDn]]. pose proof SD as (S & E0 & E1 & _). pose proof NR as Hn.
    pose proof CZ as (Z1 & Z2 & Z3 & Z4). pose proof big_stray as BS.
    assert (DB : decision (snd big) n) by (split; auto; lia).
    assert (RR : forall i, reachable (snd small) i -> reachable (snd big) i).
    { intros i H. induction H as [| i H IH D | i H IH D]; [constructor | |].
      - constructor 2; auto. destruct D as [D0 D]. split; auto. rewrite S by lia.
        destruct (Z.eqb_spec i n); subst; auto.
      - constructor 3; auto. destruct D as [D0 D]. split; auto. rewrite S by lia.
        destruct (Z.eqb_spec i n); subst; auto. }
    assert (RB : forall i, reachable (snd big) i ->
              reachable (snd small) i \/ i = 2 * n \/ i = 2 * n + 1).
    { intros i H. induction H as [| i H IH D | i H IH D]; [left; constructor | |].
      - destruct (Z.eq_dec i n) as [-> | N]; auto. left.
        assert (D' : decision (snd small) i).
        { destruct D as [D0 D]. split; auto. rewrite S in D by lia. destruct (Z.eqb_spec i n); auto; lia. }
        constructor 2; auto.
      - destruct (Z.eq_dec i n) as [-> | N]; auto. left.
        assert (D' : decision (snd small) i).
        { destruct D as [D0 D]. split; auto. rewrite S in D by lia. destruct (Z.eqb_spec i n); auto; lia. }
        constructor 3; auto. }
    intros i. split.
    - intros [R ND]. destruct (RB i R) as [R' | H]; auto. left. split.
      + split; auto. intros [D0 D]. apply ND. split; auto. rewrite S by lia.
        destruct (Z.eqb_spec i n); subst; auto.
      + intros ->. auto.
    - intros [[[R ND] N] | [-> | ->]].
      + split; auto. intros [D0 D]. rewrite S in D by lia. destruct (Z.eqb_spec i n); [lia |].
        apply ND. split; auto.
      + split; [constructor 2; auto |]. intros [_ D]. auto.
      + split; [constructor 3; auto |]. intros [_ D]. auto.
  Qed.

  (** points in the leaves of the small tree *)
  Lemma small_occ : forall i, leaf_node (snd small) i ->
    occ (map (collapse n) gidx) i =
    if i =? n then occ gidx (2 * n) + occ gidx (2 * n + 1) else occ gidx i.
  Proof.
    intros i [R ND]. pose proof NR as Hn.
    destruct (Z.eqb_spec i n) as [-> | N].
    - rewrite occ_collapse_node by lia.
      pose proof (node_not_idx b SO t TI m MO VE NB NZ) as NI. fold n gidx in NI.
      rewrite (occ_0 gidx n NI). lia.
    - assert (i <> 2 * n /\ i <> 2 * n + 1).
      { pose proof SS as [_ [_ NDn]].
        split; intros ->; apply reachable_parent in R; try lia; destruct R as [_ R].
        - replace (2 * n / 2) with n in R by lia. auto.
        - replace ((2 * n + 1) / 2) with n in R by lia. auto. }
      apply occ_collapse_other; tauto.
  Qed.

  (** growing leaves of the two trees, in terms of the grown indices *)
  Lemma In_small : forall i, In i (growing_leaves d points mp small) <->
    leaf_node (snd small) i /\ i < heap_size d /\
    forall k, mp = Some k -> 2 * k <= if i =? n then occ gidx (2 * n) + occ gidx (2 * n + 1) else occ gidx i.
  Proof.
    intros i. pose proof PL as (L1 & L2 & L3 & L4).
    rewrite In_growing by auto.
    pose proof (small_idx b SO t TI m MO VE NB NZ) as SI. fold n small gidx in SI. rewrite <- SI.
    split; intros (L & H1 & H2); split; auto; split; auto; intros k Ek; specialize (H2 k Ek);
      rewrite small_occ in * by auto; auto.
  Qed.

  Lemma In_big : forall i, In i (growing_leaves d points mp big) <->
    leaf_node (snd big) i /\ i < heap_size d /\ forall k, mp = Some k -> 2 * k <= occ gidx i.
  Proof.
    intros i. pose proof PL as (L1 & L2 & L3 & L4).
    rewrite In_growing by auto.
    pose proof (big_idx b SO t TI m MO VE NB NZ) as BI. fold n big gidx in BI. rewrite <- BI.
    reflexivity.
  Qed.

  Lemma small_stump : is_stump (structure d (fst small) (snd small)) = (n =? 1).
  Proof.
    pose proof PL as (L1 & L2 & L3 & L4). rewrite stump_1 by auto.
    pose proof SS as [NS [R ND]]. pose proof SD as (_ & E0 & _). pose proof NR.
    destruct (Z.eqb_spec n 1) as [-> | N]; [now rewrite E0 |].
    apply Z.eqb_neq. destruct (under_root n ltac:(lia)) as [? | [b0 H']]; [lia |].
    apply (reachable_above _ _ 1 b0 R (Z.le_refl 1) H').
  Qed.

  Lemma big_stump : is_stump (structure d (fst big) (snd big)) = false.
  Proof.
    pose proof PL as (L1 & L2 & L3 & L4). rewrite stump_1 by auto.
    pose proof SD as (S & E0 & E1 & _). pose proof NR. pose proof SS as [NS [R ND]].
    apply Z.eqb_neq.
    destruct (Z.eq_dec n 1) as [E | N]; [congruence |]. rewrite S by lia.
    destruct (Z.eqb_spec 1 n); [lia |].
    destruct (under_root n ltac:(lia)) as [? | [b0 H']]; [lia |].
    apply (reachable_above _ _ 1 b0 R (Z.le_refl 1) H').
  Qed.

  (** the node can grow in the small tree *)
  Lemma node_grows : In n (growing_leaves d points mp small).
  Proof.
    apply In_small. pose proof SS as [_ L]. split; auto.
    split; auto. rewrite Z.eqb_refl. intros k Ek.
    destruct (kinds b t TI m MO VE NB NZ) as
      [(MG & MA & CG & GP & Eb & Es & HV & RO & SN) | (MG & MA & PR & D1 & Eb & Es)].
    - pose proof (small_idx b SO t TI m MO VE NB NZ) as SI. rewrite Es in SI. cbn [fst snd] in SI.
      rewrite <- (ti_idx _ _ TI) in SI. fold n gidx in SI.
      pose proof (small_occ n L) as O. rewrite Z.eqb_refl, SI in O. rewrite <- O.
      now apply CG.
    - pose proof (big_leaves (2 * n)) as B1. pose proof (big_leaves (2 * n + 1)) as B2.
      unfold big in B1, B2. rewrite Eb in B1, B2. cbn [snd] in B1, B2.
      pose proof (ti_min _ _ TI k Ek D1 _ (proj2 B1 ltac:(auto))).
      pose proof (ti_min _ _ TI k Ek D1 _ (proj2 B2 ltac:(auto))).
      assert (EG : gidx = t_idx t).
      { unfold gidx. rewrite (nogrow_indices b SO t TI m VE) by now left. auto. }
      rewrite EG. lia.
  Qed.
End Generic.
