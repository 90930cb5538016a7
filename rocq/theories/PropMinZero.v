(** Leaving min_points_per_leaf unspecified is the same as 0: C37. *)
From Coq Require Import ZArith List Bool Lia.
From Verif Require Import Base LemBase ModelJaxext ModelGrove ModelStep SpecTree SpecRun Laws
  ProofTree ProofAggregate SpecLoop SpecSame Examples ExampleRun.
Import ListNotations.
Open Scope Z_scope.

(** The same arguments of [init] but for the minimum number of points *)
Definition with_min {fo : fops} (s : settings) (m : option Z) : settings :=
  {| i_X := i_X s; i_y := i_y s; i_max_split := i_max_split s; i_split_bits := i_split_bits s;
     i_num_trees := i_num_trees s; i_p_nonterminal := i_p_nonterminal s;
     i_sigma2_alpha := i_sigma2_alpha s; i_sigma2_beta := i_sigma2_beta s;
     i_min_points := m;
     i_resid_batch := i_resid_batch s; i_count_batch := i_count_batch s;
     i_save_ratios := i_save_ratios s |}.

Section Props.
  Context {fo : fops} {zo : zoob} {foo : foob fo} {g : rng fo}.
  Hypothesis fill_nonneg : 0 <= oob_fill zmode.

  (** forget the mask of growable leaves *)
  Definition strip_tree (t : tree) : tree :=
    {| t_leaf := t_leaf t; t_var := t_var t; t_split := t_split t; t_idx := t_idx t; t_aff := None |}.
  Definition strip (b : bart) : bart :=
    {| trees := map strip_tree (trees b); resid := resid b; sigma2 := sigma2 b;
       grow_prop_count := grow_prop_count b; grow_acc_count := grow_acc_count b;
       prune_prop_count := prune_prop_count b; prune_acc_count := prune_acc_count b;
       p_nonterminal := p_nonterminal b; p_propose_grow := p_propose_grow b;
       sigma2_alpha := sigma2_alpha b; sigma2_beta := sigma2_beta b;
       max_split := max_split b; split_bits := split_bits b; y := y b; X := X b;
       min_points_per_leaf := None;
       resid_batch_size := resid_batch_size b; count_batch_size := count_batch_size b;
       ratios := ratios b |}.

  Definition mask_ok (split : list Z) (aff : list bool) : Prop :=
    length aff = length split /\
    ((forall x, In x aff -> x = true) \/
     ((forall s, In s split -> s = 0) /\ ((1 < length aff)%nat -> nth 1 aff false = true))).

  Lemma In_scatter_set A (l : list A) i v x : In x (scatter_set l i v) -> x = v \/ In x l.
  Proof. unfold scatter_set. destruct (in_bounds _ _); auto. apply In_upd. Qed.

  Lemma nth_upd_true n m l : nth m l false = true -> nth m (upd n true l) false = true.
  Proof.
    revert m l. induction n; destruct l; cbn; intros; auto; destruct m; auto.
  Qed.

  Lemma In_firstn_in A n (l : list A) x : In x (firstn n l) -> In x l.
  Proof.
    revert l; induction n; intros [| a l] H; cbn in H; try contradiction.
    destruct H; [now left | right; auto].
  Qed.

  Lemma mask_prune split aff i : mask_ok split aff ->
    mask_ok (scatter_set split i 0) (scatter_set aff i true).
  Proof.
    intros [L H]. split; [now rewrite !length_scatter_set |]. destruct H as [H | [H1 H2]].
    - left. intros x Hx. apply In_scatter_set in Hx as [-> | Hx]; auto.
    - right. rewrite length_scatter_set. split.
      + intros s Hs. apply In_scatter_set in Hs as [-> | Hs]; auto.
      + intros Hl. specialize (H2 Hl). unfold scatter_set. destruct (in_bounds _ _); auto.
        now apply nth_upd_true.
  Qed.

  Lemma mask_growable split aff : mask_ok split aff ->
    growable_leaves split (Some aff) = growable_leaves split None.
  Proof.
    intros [L H]. unfold growable_leaves.
    set (leaf := is_actual_leaf split false).
    assert (Ll : zlen leaf = zlen split) by apply zlen_is_actual_leaf.
    assert (La : zlen aff = zlen split) by (unfold zlen; now rewrite L).
    apply list_ext with (d := false).
    - rewrite zlen_map2. lia.
    - intros i Hi. rewrite zlen_map2, Ll, La, Z.min_id in Hi.
      rewrite (zget_map2 _ _ _ _ _ false false) by lia.
      destruct H as [H | [H1 H2]].
      + rewrite (H (zget false aff i)) by (apply zget_In; lia). apply andb_true_r.
      + unfold leaf. rewrite zget_is_actual_leaf by (fold leaf; lia).
        assert (E : forall j, entry split j = 0).
        { intros j. unfold entry. destruct (Nat.lt_ge_cases (Z.to_nat j) (length split)).
          - apply H1. now apply nth_In.
          - now apply nth_overflow. }
        rewrite !E. cbn [Z.eqb andb negb]. rewrite orb_false_r.
        destruct (Z.eqb_spec i 1) as [-> | N]; auto.
        unfold zget. change (Z.to_nat 1) with 1%nat. rewrite H2; auto.
        unfold zlen in *. lia.
  Qed.

  Lemma strip_tree_moves b t k : (exists aff, t_aff t = Some aff /\ mask_ok (t_split t) aff) ->
    sample_moves_tree (strip b) (strip_tree t) k = sample_moves_tree b t k.
  Proof.
    intros (aff & Ea & M). unfold sample_moves_tree, grow_move, prune_move, choose_leaf, choose_leaf_parent.
    cbn [strip strip_tree t_var t_split t_aff max_split p_nonterminal p_propose_grow]. rewrite Ea. cbv zeta.
    rewrite (mask_growable _ _ M).
    rewrite (mask_growable _ _ (mask_prune _ _ _ M)). reflexivity.
  Qed.

  Lemma enumerate_map {A B} (f : A -> B) l :
    enumerate (map f l) = map (fun it => (fst it, f (snd it))) (enumerate l).
  Proof.
    unfold enumerate. rewrite zlen_map. generalize (arange (zlen l)) as r.
    induction l as [| x l IH]; intros [| i r]; cbn [map combine]; auto. now rewrite IH.
  Qed.

  Definition masked (N : nat) (b : bart) : Prop :=
    min_points_per_leaf b = Some 0 /\
    forall t, In t (trees b) -> length (t_var t) = N /\ length (t_split t) = N /\
      exists aff, t_aff t = Some aff /\ mask_ok (t_split t) aff.

  Lemma strip_moves N b k : masked N b -> sample_moves (strip b) k = sample_moves b k.
  Proof.
    intros [_ H]. unfold sample_moves. cbn [strip trees]. rewrite enumerate_map, map_map, zlen_map.
    apply map_ext_in. intros [i t] Hi. cbn [fst snd].
    unfold enumerate in Hi. apply in_combine_r in Hi.
    rewrite strip_tree_moves; auto. now apply H.
  Qed.

  Lemma gather_nonneg l i : (forall x, In x l -> 0 <= x) -> 0 <= gather zmode l i.
  Proof.
    intros H. unfold gather.
    assert (N : forall n, 0 <= nth n l (oob_fill zmode)).
    { intros n. destruct (Nat.lt_ge_cases n (length l)).
      - apply H. now apply nth_In.
      - now rewrite nth_overflow. }
    destruct (in_bounds _ _); auto. destruct (oob_clip _); auto.
  Qed.

  Lemma wrap_nonneg x : 0 <= wrap 32 x.
  Proof. unfold wrap. apply Z.mod_pos_bound. reflexivity. Qed.

  Lemma counts_nonneg idx size bs x : In x (count_datapoints_per_leaf idx size bs) -> 0 <= x.
  Proof.
    unfold count_datapoints_per_leaf. destruct bs as [bs |];
      [rewrite aggregate_batched32 | rewrite aggregate_scatter32];
      intros H; apply in_map_iff in H as (z & <- & _); apply wrap_nonneg.
  Qed.

  (** forget the mask in the result of the parallel stage *)
  Definition strip_stage (s : stage1) : stage1 :=
    {| s_tree := strip_tree (s_tree s); s_move := s_move s; s_count_tree := s_count_tree s;
       s_counts := s_counts s; s_ltp := s_ltp s; s_prelkv := s_prelkv s; s_prelf := s_prelf s |}.

  Definition stage_nonneg (s : stage1) : Prop :=
    0 <= c_left (s_counts s) /\ 0 <= c_right (s_counts s).

  Lemma strip_parallel_tree b k i t m : min_points_per_leaf b = Some 0 ->
    parallel_stage_tree (strip b) k i (strip_tree t) m = strip_stage (parallel_stage_tree b k i t m) /\
    stage_nonneg (parallel_stage_tree b k i t m).
  Proof.
    intros E. unfold parallel_stage_tree, compute_count_trees.
    cbn [strip strip_tree t_idx t_leaf t_split t_aff X count_batch_size min_points_per_leaf trees sigma2].
    rewrite E, zlen_map. cbv zeta.
    set (ct := count_datapoints_per_leaf _ _ _).
    assert (Hc : forall j, 0 <= gather zmode ct j).
    { intros j. apply gather_nonneg. intros x. apply counts_nonneg. }
    split.
    - unfold strip_stage, strip_tree. cbn [s_tree s_move s_count_tree s_counts s_ltp s_prelkv s_prelf
        t_leaf t_var t_split t_idx].
      f_equal. unfold complete_ratio, compute_p_prune. cbn [c_left c_right].
      change (2 * 0) with 0. rewrite !(proj2 (Z.leb_le 0 _)) by apply Hc. cbn [orb]. now rewrite andb_true_r.
    - split; cbn [s_counts c_left c_right]; apply Hc.
  Qed.

  Lemma strip_parallel b moves k : min_points_per_leaf b = Some 0 ->
    parallel_stage (strip b) moves k = map strip_stage (parallel_stage b moves k) /\
    (forall s, In s (parallel_stage b moves k) -> stage_nonneg s).
  Proof.
    intros E. unfold parallel_stage. cbn [strip trees]. rewrite enumerate_map.
    revert moves. generalize (enumerate (trees b)) as l.
    induction l as [| it l IH]; intros [| m moves]; cbn [map map2 In]; try (split; [easy | intros s []]).
    destruct (strip_parallel_tree b k (fst it) (snd it) m E) as [E1 N1].
    destruct (IH moves) as [E2 N2]. split.
    - cbn [fst snd]. now rewrite E1, E2.
    - intros s [<- | H]; auto.
  Qed.

  Lemma strip_sequential rb ef ss : (forall s, In s ss -> stage_nonneg s) -> forall r,
    sequential_stage rb None ef r (map strip_stage ss) = sequential_stage rb (Some 0) ef r ss.
  Proof.
    induction ss as [| s ss IH]; intros N r; auto. cbn [map sequential_stage].
    assert (E : accept_move_and_sample_leaves rb None ef r (strip_stage s) =
                accept_move_and_sample_leaves rb (Some 0) ef r s).
    { destruct (N s (or_introl eq_refl)) as [N1 N2]. unfold accept_move_and_sample_leaves.
      cbn [strip_stage strip_tree s_tree s_move s_count_tree s_counts s_ltp s_prelkv s_prelf t_leaf t_idx].
      rewrite (proj2 (Z.leb_le 0 _) N1), (proj2 (Z.leb_le 0 _) N2), !andb_true_r. reflexivity. }
    rewrite E. destruct (accept_move_and_sample_leaves rb (Some 0) ef r s) as [r1 a].
    rewrite IH; auto. intros s' H. apply N. now right.
  Qed.

  Lemma strip_step N b k : masked N b -> step (strip b) k = strip (step b k).
  Proof.
    intros M. unfold step, sample_trees, accept_moves_and_sample_leaves. cbv zeta.
    rewrite (strip_moves N b _ M).
    destruct (strip_parallel b (sample_moves b (KSplit (KSplit k 2 1) 2 1)) (KSplit (KSplit k 2 1) 2 0) (proj1 M))
      as [EP NN]. rewrite EP.
    cbn [strip trees sigma2 resid resid_batch_size min_points_per_leaf]. rewrite zlen_map.
    rewrite strip_sequential by exact NN. rewrite (proj1 M).
    destruct (sequential_stage _ _ _ _ _) as [r aa].
    unfold sample_sigma, set_sigma2, strip.
    cbn [trees resid sigma2 grow_prop_count grow_acc_count prune_prop_count prune_acc_count p_nonterminal
      p_propose_grow sigma2_alpha sigma2_beta max_split split_bits y X min_points_per_leaf resid_batch_size
      count_batch_size ratios].
    f_equal.
    clear. generalize (parallel_stage b (sample_moves b (KSplit (KSplit k 2 1) 2 1)) (KSplit (KSplit k 2 1) 2 0)) as ss.
    intros ss. revert aa. induction ss as [| s ss IH]; intros [| a aa]; cbn [map map2]; auto. now rewrite IH.
  Qed.

  Lemma moves_length N b k m : masked N b -> In m (sample_moves b k) -> length (m_var_tree m) = N.
  Proof.
    intros [_ H] Hm. unfold sample_moves in Hm. apply in_map_iff in Hm as ([i t] & <- & Hi).
    unfold enumerate in Hi. apply in_combine_r in Hi. destruct (H t Hi) as [L _].
    unfold sample_moves_tree, grow_move, choose_move.
    repeat match goal with |- context [let '(_, _) := ?x in _] => destruct x end.
    cbn [m_var_tree g_var_tree]. now rewrite length_scatter_set.
  Qed.

  Lemma stage_mask N b moves k s : masked N b ->
    (forall m, In m moves -> length (m_var_tree m) = N) ->
    In s (parallel_stage b moves k) ->
    length (t_var (s_tree s)) = N /\ length (t_split (s_tree s)) = N /\
    exists aff, t_aff (s_tree s) = Some aff /\ length aff = N /\ forall x, In x aff -> x = true.
  Proof.
    intros [E HT] HM Hs. unfold parallel_stage in Hs.
    assert (HE : forall it, In it (enumerate (trees b)) -> In (snd it) (trees b)).
    { intros [i t] Hi. unfold enumerate in Hi. now apply in_combine_r in Hi. }
    revert moves HM Hs HE. generalize (enumerate (trees b)) as l.
    induction l as [| it l IH]; intros [| m moves] HM Hs HE; cbn [map2 In] in Hs; try contradiction.
    destruct Hs as [<- | Hs].
    - pose proof (HM m (or_introl eq_refl)) as Lm.
      assert (Hit : In (snd it) (trees b)) by (apply HE; now left).
      destruct (HT _ Hit) as (_ & Ls & _).
      unfold parallel_stage_tree, compute_count_trees. rewrite E. cbn [s_tree t_var t_split t_aff].
      split; [exact Lm |]. split; [exact Ls |]. eexists. split; [reflexivity |].
      set (ct := count_datapoints_per_leaf _ _ _).
      assert (Lc : length ct = (length (m_var_tree m) * 2)%nat).
      { assert (Z : zlen ct = zlen (m_var_tree m) * 2).
        { unfold ct, count_datapoints_per_leaf. destruct (count_batch_size b).
          - apply zlen_aggregate_batched. unfold zlen. lia.
          - apply zlen_aggregate_scatter. unfold zlen. lia. }
        unfold zlen in Z. lia. }
      split.
      + rewrite map_length, firstn_length, length_scatter_set, Lc. lia.
      + intros x Hx. apply in_map_iff in Hx as (c & <- & Hc). apply Z.leb_le.
        apply In_firstn_in in Hc. apply In_scatter_set in Hc as [-> | Hc].
        * unfold add32. apply wrap_nonneg.
        * now apply counts_nonneg in Hc.
    - apply (IH moves); auto.
      + intros m' Hm. apply HM. now right.
      + intros it' Hi. apply HE. now right.
  Qed.

  Lemma step_masked N b k : masked N b -> masked N (step b k).
  Proof.
    intros M. unfold step, sample_trees, accept_moves_and_sample_leaves. cbv zeta.
    set (moves := sample_moves b _).
    assert (HM : forall m, In m moves -> length (m_var_tree m) = N).
    { intros m. now apply moves_length. }
    pose proof (stage_mask N b moves (KSplit (KSplit k 2 1) 2 0)) as SM.
    set (ss := parallel_stage _ _ _) in *.
    destruct (sequential_stage _ _ _ _ ss) as [r aa].
    unfold sample_sigma, set_sigma2, masked. cbn [trees min_points_per_leaf].
    split; [exact (proj1 M) |]. intros t Ht.
    assert (A : forall ss aa, In t (map2 (final_tree (split_bits b)) ss aa) ->
      exists s a, In s ss /\ t = final_tree (split_bits b) s a).
    { clear. induction ss as [| s ss IH]; intros [| a aa] H; cbn [map2 In] in H; try contradiction.
      destruct H as [<- | H]; [exists s, a; split; auto; now left |].
      destruct (IH aa H) as (s' & a' & H1 & H2). exists s', a'. split; auto. now right. }
    destruct (A ss aa Ht) as (s & a & Hs & ->).
    destruct (SM s M HM Hs) as (L1 & L2 & aff & Ea & La & Ha).
    assert (L3 : length (t_split (final_tree (split_bits b) s a)) = N).
    { unfold final_tree, apply_moves_to_split_trees. cbn [t_split]. cbv zeta.
      now rewrite !length_scatter_set. }
    split; [exact L1 |]. split; [exact L3 |]. exists aff. split; [exact Ea |].
    split; [congruence |]. now left.
  Qed.

  Lemma init_masked s : i_min_points s = Some 0 -> exists N, masked N (init_of s).
  Proof.
    intros E. exists (length (make_tree (zlen (i_p_nonterminal s ++ [f0]) - 1) 0)).
    unfold masked, init_of, init. cbn [trees min_points_per_leaf]. split; auto.
    intros t Ht. apply In_full in Ht. subst t. cbn [t_var t_split t_aff]. split; [reflexivity |].
    split; [reflexivity |]. rewrite E. eexists. split; [reflexivity |].
    change (2 * 0) with 0. rewrite (proj2 (Z.leb_le 0 _)) by (unfold zlen; lia).
    unfold mask_ok. rewrite length_scatter_set.
    set (d := zlen _ - 1).
    assert (L : length (make_tree d false) = length (make_tree d 0)).
    { unfold make_tree, full. now rewrite !repeat_length. }
    split; [exact L |]. right. split.
    - intros x Hx. unfold make_tree in Hx. now apply In_full in Hx.
    - generalize (make_tree d false) as l. intros [| x [| x' l]] Hl; cbn [length] in Hl; try lia.
      unfold scatter_set. rewrite norm_index_nonneg by lia.
      replace (in_bounds _ 1) with true; [reflexivity |].
      symmetry. unfold in_bounds. apply andb_true_intro.
      split; [apply Z.leb_le | apply Z.ltb_lt]; unfold zlen; cbn [length]; lia.
  Qed.

  Lemma init_strip s : init_of (with_min s None) = strip (init_of (with_min s (Some 0))).
  Proof.
    unfold init_of, with_min, init, strip. cbn [i_X i_y i_max_split i_split_bits i_num_trees i_p_nonterminal
      i_sigma2_alpha i_sigma2_beta i_min_points i_resid_batch i_count_batch i_save_ratios
      trees resid sigma2 grow_prop_count grow_acc_count prune_prop_count prune_acc_count p_nonterminal
      p_propose_grow sigma2_alpha sigma2_beta max_split split_bits y X min_points_per_leaf resid_batch_size
      count_batch_size ratios].
    f_equal. unfold full. generalize (Z.to_nat (i_num_trees s)) as n. induction n as [| n IH]; cbn [repeat map]; [reflexivity |].
    now rewrite <- IH.
  Qed.

  Lemma same_strip b : same_sample (strip b) b.
  Proof. unfold same_sample, strip. cbn. rewrite !map_map. cbn. repeat split. Qed.

  (** C37. Whatever the float arithmetic and the random numbers, a chain with
      min_points_per_leaf unspecified goes through the same trees, leaves, noise
      variances and counters as one with min_points_per_leaf = 0, at every
      step. *)
  Theorem C37_unspecified_is_zero : forall s k n,
    same_sample (chain (init_of (with_min s None)) k n) (chain (init_of (with_min s (Some 0))) k n).
  Proof.
    intros s k n.
    destruct (init_masked (with_min s (Some 0)) eq_refl) as [N M].
    assert (E : chain (init_of (with_min s None)) k n = strip (chain (init_of (with_min s (Some 0))) k n) /\
      masked N (chain (init_of (with_min s (Some 0))) k n)).
    { rewrite init_strip. induction n as [| n [IH MM]]; [split; [reflexivity | exact M] |]. cbn [chain].
      split; [| now apply step_masked]. rewrite IH. now apply (strip_step N). }
    rewrite (proj1 E). apply same_strip.
  Qed.
End Props.

(** The hypothesis on the out-of-bounds mode holds for the clipping mode, and
    the two chains of the example accept the same moves, some of them. *)
Example min_zero_example :
  0 <= oob_fill (@zmode zclip) /\
  map (fun m => map (fun n =>
      let b := chain (zo := zclip) (foo := xclip) (g := xrng)
        (init_of (foo := xclip) (with_min ex_settings m)) (KRoot 0) n in
      (grow_acc_count b, map (fun t => count_nonzero (map (fun s => negb (s =? 0)) (t_split t))) (trees b)))
    [1; 3; 5]%nat) [None; Some 0] =
  [[(3, [1; 1; 1]); (2, [3; 1; 3]); (1, [2; 2; 2])];
   [(3, [1; 1; 1]); (2, [3; 1; 3]); (1, [2; 2; 2])]].
Proof. split; [vm_compute; discriminate |]. vm_compute. reflexivity. Qed.

Print Assumptions C37_unspecified_is_zero.
