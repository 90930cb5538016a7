(** Minimal integer types never overflow: C39. *)
From Coq Require Import ZArith List Bool Lia.
From Verif Require Import Base LemBase ModelJaxext ModelGrove ModelStep SpecTree SpecRange SpecForest SpecRun Laws
  ProofTree ProofRange ProofRoute ProofMoves ProofStep ProofRun ProofForest SpecLoop SpecSame PropForest Examples ExampleRun.
Import ListNotations.
Open Scope Z_scope.

(** The unsigned types, by number of bits. *)
Definition unsigned_types : list Z := [8; 16; 32; 64].
(** A type with [bits] bits holds [v]. *)
Definition holds (bits v : Z) : Prop := 0 <= v < 2 ^ bits.

(** C39. minimal_unsigned_dtype returns the smallest unsigned type that holds
    the value. *)
Theorem C39_minimal_dtype : forall v, 0 <= v < 2 ^ 64 ->
  In (minimal_unsigned_bits v) unsigned_types /\ holds (minimal_unsigned_bits v) v /\
  forall bits, In bits unsigned_types -> holds bits v -> minimal_unsigned_bits v <= bits.
Proof.
  intros v Hv. unfold minimal_unsigned_bits, holds.
  destruct (Z.ltb_spec v (2 ^ 8)); [| destruct (Z.ltb_spec v (2 ^ 16)); [| destruct (Z.ltb_spec v (2 ^ 32))]].
  all: split; [cbn; tauto | split; [lia |]]; intros bits Hb Hh.
  all: repeat (destruct Hb as [<- | Hb]; [lia |]); destruct Hb.
Qed.

(** The same arguments of [init] but for the type of the cutpoints *)
Definition with_split_bits {fo : fops} (s : settings) (bits : Z) : settings :=
  {| i_X := i_X s; i_y := i_y s; i_max_split := i_max_split s; i_split_bits := bits;
     i_num_trees := i_num_trees s; i_p_nonterminal := i_p_nonterminal s;
     i_sigma2_alpha := i_sigma2_alpha s; i_sigma2_beta := i_sigma2_beta s;
     i_min_points := i_min_points s;
     i_resid_batch := i_resid_batch s; i_count_batch := i_count_batch s;
     i_save_ratios := i_save_ratios s |}.

Section Props.
  Context {fo : fops} {zo : zoob} {foo : foob fo} {fl : flaws fo}.

  Lemma rule_fits_bits b t bits i v c : setup_ok b -> tree_inv b t ->
    8 <= bits -> (forall v, 0 <= entry (max_split b) v < 2 ^ bits) ->
    rule_ok (max_split b) (t_var t) (t_split t) i v c -> 0 <= i < heap_size (bd b) ->
    holds bits c.
  Proof.
    intros SO TI Hb Hm [_ [[_ [A _]] | [_ A]]] Hi; unfold holds.
    - specialize (Hm v). lia.
    - split; [lia |]. pose proof (so_d _ SO) as Hd.
      assert (Z.log2 i <= 64).
      { apply Z.le_trans with (Z.log2 (2 ^ 64)); [| reflexivity]. apply Z.log2_le_mono.
        unfold heap_size in Hi. assert (2 ^ (bd b - 1) <= 2 ^ 64) by (apply Z.pow_le_mono_r; lia). lia. }
      assert (2 ^ 8 <= 2 ^ bits) by (apply Z.pow_le_mono_r; lia).
      change (2 ^ 8) with 256 in *. lia.
  Qed.

  Lemma rule_fits b t i v c : setup_ok b -> tree_inv b t ->
    rule_ok (max_split b) (t_var t) (t_split t) i v c -> 0 <= i < heap_size (bd b) ->
    holds (split_bits b) c.
  Proof. intros SO TI. apply (rule_fits_bits b t); auto; apply SO. Qed.

  (** C39. All that is stored in a state fits in its type, and the leaf
      indices are those one gets with unbounded integers. The types are those
      of init: minimal_unsigned_dtype(2**max_depth - 1) for leaf indices,
      minimal_unsigned_dtype(p - 1) for the variables, that of max_split for the
      cutpoints. *)
  Theorem C39_stored_values : forall s b t, settings_ok s -> reached s b -> In t (trees b) ->
    (forall i, In i (t_idx t) -> holds (minimal_unsigned_bits (2 ^ depth_of s - 1)) i) /\
    t_idx t = map (fun x => leaf_of (Z.to_nat (depth_of s) - 1) x (t_var t) (t_split t) 1) (points_of s) /\
    (forall v, In v (t_var t) -> holds (minimal_unsigned_bits (zlen (i_max_split s) - 1)) v) /\
    (forall c, In c (t_split t) -> holds (i_split_bits s) c).
  Proof.
    intros s b t OK R Ht. pose proof (reached_inv s OK b R) as I.
    pose proof (in_trees _ I t Ht) as TI. pose proof (in_setup _ I) as SO.
    destruct (reached_fields s b R) as (EX & EY & EM & Emp & ED & _ & _ & _ & EB & _).
    split; [| split; [now apply C06_leaf_indices with (b := b) | split]].
    - intros i Hi. destruct (idx_range b SO t TI i Hi) as [_ Hr].
      pose proof (so_d _ SO) as Hd. rewrite heap_2 in Hr by lia.
      rewrite <- ED. unfold holds. split; [lia |].
      assert (2 ^ bd b <= 2 ^ 64) by (apply Z.pow_le_mono_r; lia).
      pose proof (minimal_unsigned_bits_fits (2 ^ bd b - 1) ltac:(lia)). lia.
    - intros v Hv. apply In_nth with (d := 0) in Hv as (i & Hi & <-).
      rewrite <- EM. change (zlen (max_split b)) with (bp b).
      pose proof (ti_vrange _ _ TI (Z.of_nat i)) as H. unfold entry in H. now rewrite Nat2Z.id in H.
    - intros c Hc. apply In_nth with (d := 0) in Hc as (i & Hi & <-).
      replace (nth i (t_split t) 0) with (entry (t_split t) (Z.of_nat i)) by (unfold entry; now rewrite Nat2Z.id).
      set (j := Z.of_nat i).
      destruct (Z.eq_dec (entry (t_split t) j) 0) as [-> | N].
      { split; [lia |]. apply Z.pow_pos_nonneg; [lia |]. pose proof (ok_bits _ OK). lia. }
      assert (D : decision (t_split t) j).
      { split; auto. destruct (Z.eq_dec j 0) as [E | ?]; [| lia]. rewrite E in N.
        now rewrite (ti_slot0 _ _ TI) in N. }
      rewrite <- EB. apply (rule_fits b t j (entry (t_var t) j)); auto.
      + now apply (ti_rules _ _ TI).
      + split; [lia |]. unfold j. rewrite <- (ti_split _ _ TI). unfold zlen. lia.
  Qed.

  (** the state with another type of cutpoints *)
  Definition bits_state (bits : Z) (b : bart) : bart :=
    {| trees := trees b; resid := resid b; sigma2 := sigma2 b;
       grow_prop_count := grow_prop_count b; grow_acc_count := grow_acc_count b;
       prune_prop_count := prune_prop_count b; prune_acc_count := prune_acc_count b;
       p_nonterminal := p_nonterminal b; p_propose_grow := p_propose_grow b;
       sigma2_alpha := sigma2_alpha b; sigma2_beta := sigma2_beta b;
       max_split := max_split b; split_bits := bits; y := y b; X := X b;
       min_points_per_leaf := min_points_per_leaf b;
       resid_batch_size := resid_batch_size b; count_batch_size := count_batch_size b;
       ratios := ratios b |}.

  Context {g : rng fo} {rl : rlaws g}.

  (** the range of cutpoints in two types that hold all of them plus one *)
  Lemma split_range_bits d var sp ms bits bits' l v : 2 <= d -> zlen var = heap_size d -> zlen sp = heap_size d ->
    8 <= bits -> 8 <= bits' -> (forall i, 0 <= entry sp i < 2 ^ bits - 1) -> (forall i, 0 <= entry sp i < 2 ^ bits' - 1) ->
    0 <= l <= heap_size d ->
    split_range bits var sp ms l v = split_range bits' var sp ms l v.
  Proof.
    intros Hd Hv Hs Hb Hb' H H' Hl. unfold split_range.
    assert (P : 2 ^ 8 <= 2 ^ bits) by (apply Z.pow_le_mono_r; lia).
    assert (P' : 2 ^ 8 <= 2 ^ bits') by (apply Z.pow_le_mono_r; lia). change (2 ^ 8) with 256 in *.
    assert (HH : heap_size d = 2 * heap_size (d - 1)).
    { unfold heap_size. rewrite <- Z.pow_succ_r by lia. f_equal. lia. }
    assert (1 <= heap_size (d - 1)) by (unfold heap_size; pose proof (Z.pow_pos_nonneg 2 (d - 1 - 1)); lia).
    assert (G : forall n r i, 0 <= i <= heap_size d ->
      let '(a, _, j) := iterate n (split_range_loop var sp v) (0, r, i) in
      0 <= a < 2 ^ bits - 1 /\ 0 <= a < 2 ^ bits' - 1 /\ 0 <= j <= heap_size d).
    { intros n r i Hi.
      apply (iterate_ind _ _ (fun _ c => let '(a, _, j) := c in
        0 <= a < 2 ^ bits - 1 /\ 0 <= a < 2 ^ bits' - 1 /\ 0 <= j <= heap_size d)); [lia |].
      intros q [[a r'] j] (A1 & A2 & A3). unfold split_range_loop.
      assert (Q : 0 <= Z.shiftr j 1 < heap_size d).
      { rewrite Z.shiftr_div_pow2 by lia. change (2 ^ 1) with 2. split; [apply Z.div_pos; lia |].
        apply Z.div_lt_upper_bound; lia. }
      rewrite (gather_in _ zmode 0 sp) by lia. specialize (H (Z.shiftr j 1)). specialize (H' (Z.shiftr j 1)).
      unfold entry in H, H'. unfold zget. cbv zeta.
      destruct ((gather zmode var (Z.shiftr j 1) =? v) && negb (Z.shiftr j 1 =? 0)); cbn [andb];
        destruct (negb (Z.land j 1 =? 0)); cbn [andb negb]; lia. }
    specialize (G (Z.to_nat (tree_depth var - 1)) (1 + gather_fill 0 ms v) l Hl).
    destruct (iterate _ _ _) as [[a r] j]. destruct G as (G1 & G2 & _).
    rewrite !wrap_small by lia. reflexivity.
  Qed.

  (** a move with another variable and cutpoint to grow *)
  Definition other_rule (m : move) (v c : Z) : move :=
    {| m_allowed := m_allowed m; m_grow := m_grow m; m_num_growable := m_num_growable m; m_node := m_node m;
       m_left := m_left m; m_right := m_right m; m_partial_ratio := m_partial_ratio m; m_grow_var := v;
       m_grow_split := c; m_var_tree := m_var_tree m; m_logu := m_logu m |}.

  Lemma move_bits b it km bits : inv b -> tree_inv b (snd it) -> 8 <= bits ->
    (forall v, entry (max_split b) v < 2 ^ split_bits b - 1) ->
    (forall v, entry (max_split b) v < 2 ^ bits - 1) ->
    exists v c, move_of (bits_state bits b) km it = other_rule (move_of b km it) v c /\
      (m_grow (move_of b km it) = true -> v = m_grow_var (move_of b km it) /\ c = m_grow_split (move_of b km it)).
  Proof.
    intros I TI Hb W W'. pose proof (in_setup _ I) as SO. destruct it as [i t]. cbn [snd] in TI.
    pose proof (so_d _ SO) as Hd. pose proof (so_bits _ SO) as Hbb.
    assert (SB : forall B, 8 <= B -> (forall v, entry (max_split b) v < 2 ^ B - 1) ->
      forall j, 0 <= entry (t_split t) j < 2 ^ B - 1).
    { intros B HB HW j. assert (PB : 2 ^ 8 <= 2 ^ B) by (apply Z.pow_le_mono_r; lia). change (2 ^ 8) with 256 in PB.
      destruct (Z.eq_dec (entry (t_split t) j) 0) as [-> | N]; [lia |].
      destruct (Z.lt_ge_cases 0 j) as [Hj | Hj].
      2: { exfalso. apply N. unfold entry. replace (Z.to_nat j) with (Z.to_nat 0) by lia. apply (ti_slot0 _ _ TI). }
      assert (D : decision (t_split t) j) by (split; auto; lia).
      destruct (ti_rules _ _ TI j D) as [_ [[_ [A _]] | [_ A]]].
      - specialize (HW (entry (t_var t) j)). lia.
      - pose proof (decision_lt _ _ D) as Hl. rewrite (ti_split _ _ TI) in Hl.
        assert (Z.log2 j <= 64).
        { apply Z.le_trans with (Z.log2 (2 ^ 64)); [| reflexivity]. apply Z.log2_le_mono.
          unfold heap_size in Hl. assert (2 ^ (bd b - 1) <= 2 ^ 64) by (apply Z.pow_le_mono_r; lia). lia. }
        lia. }
    unfold move_of, sample_moves_tree. cbn [fst snd bits_state trees split_bits max_split p_nonterminal p_propose_grow].
    set (k1 := KSplit (KSplit km (1 + zlen (trees b)) (1 + i)) 2 0).
    set (pm := prune_move _ _ _ _ _). set (u := r_unif _ i). set (lu := r_unif _ _).
    unfold grow_move.
    destruct (choose_leaf (t_split t) (t_aff t) (p_propose_grow b) (KSplit k1 3 0)) as [[[l ng] pc] np] eqn:E.
    destruct (choose_leaf_cases b SO t TI _ _ _ _ _ E) as [Eng C].
    assert (HH : 1 <= heap_size (bd b)) by (unfold heap_size; pose proof (Z.pow_pos_nonneg 2 (bd b - 1)); lia).
    assert (IN : 0 <= l <= heap_size (bd b) \/ (ng = 0 /\ l = 2 * heap_size (bd b))).
    { destruct C as [(_ & G & _) | [(_ & -> & _) | (E0 & -> & _)]]; [| lia | auto].
      left. pose proof (can_grow_bounds b t l G). lia. }
    assert (RB : forall v0 w, 0 <= l <= heap_size (bd b) -> zlen v0 = heap_size (bd b) ->
      split_range bits v0 (t_split t) (max_split b) l w =
      split_range (split_bits b) v0 (t_split t) (max_split b) l w).
    { intros v0 w Hl Hv0. apply (split_range_bits (bd b)); auto; try lia. apply TI. }
    pose proof (ti_var _ _ TI) as LV.
    destruct IN as [Hl | [E0 El]].
    - assert (EV : choose_variable bits (t_var t) (t_split t) (max_split b) l (KSplit k1 3 1) =
                   choose_variable (split_bits b) (t_var t) (t_split t) (max_split b) l (KSplit k1 3 1)).
      { unfold choose_variable, fully_used_variables. f_equal. apply map_ext. intros w. now rewrite RB. }
      rewrite EV. unfold choose_split at 1. rewrite RB by (rewrite ?zlen_scatter_set; auto).
      eexists. eexists. split; [reflexivity |]. intros _. split; reflexivity.
    - rewrite !(scatter_set_over _ _ (t_var t)) by lia.
      eexists. eexists. split; [reflexivity |]. intros MG. exfalso. revert MG.
      unfold choose_move. cbn [m_grow g_num_growable]. rewrite E0. cbn [Z.eqb negb andb].
      unfold u. pose proof (rl_unif_ge (g := g) (KSplit km (1 + zlen (trees b)) 0) i) as U0. congruence.
  Qed.

  (** the rest of the step *)
  Definition with_move (s : stage1) (m : move) : stage1 :=
    {| s_tree := s_tree s; s_move := m; s_count_tree := s_count_tree s; s_counts := s_counts s;
       s_ltp := s_ltp s; s_prelkv := s_prelkv s; s_prelf := s_prelf s |}.

  Lemma stage_bits b it km ka bits : inv b -> tree_inv b (snd it) -> 8 <= bits ->
    (forall v, entry (max_split b) v < 2 ^ split_bits b - 1) ->
    (forall v, entry (max_split b) v < 2 ^ bits - 1) ->
    exists v c, stage_of (bits_state bits b) km ka it =
      with_move (stage_of b km ka it) (other_rule (move_of b km it) v c) /\
      (m_grow (move_of b km it) = true -> v = m_grow_var (move_of b km it) /\ c = m_grow_split (move_of b km it)).
  Proof.
    intros I TI Hb W W'. pose proof (in_setup _ I) as SO.
    destruct (move_bits b it km bits I TI Hb W W') as (v & c & EM & ER). exists v, c. split; auto.
    destruct (move_of_cases b km it SO TI) as (_ & VE & _).
    unfold stage_of. rewrite EM. set (m := move_of b km it) in *.
    assert (EI : apply_grow_to_indices (other_rule m v c) (t_idx (snd it)) (X b) =
                 apply_grow_to_indices m (t_idx (snd it)) (X b)).
    { destruct (m_grow m) eqn:MG.
      - destruct (ER eq_refl) as [-> ->]. reflexivity.
      - rewrite (nogrow_indices b SO (snd it) TI (other_rule m v c)) by (auto; exact VE).
        rewrite (nogrow_indices b SO (snd it) TI m); auto. }
    unfold parallel_stage_tree. cbn [bits_state X count_batch_size min_points_per_leaf trees sigma2].
    rewrite EI.
    change (compute_count_trees ?x (other_rule m v c) ?y) with (compute_count_trees x m y).
    destruct (compute_count_trees _ _ _) as [ct cc]. reflexivity.
  Qed.

  Lemma sequential_bits rbs mp ef ss ss' r : Forall2 (fun s s' => exists v c, s' = with_move s (other_rule (s_move s) v c)) ss ss' ->
    sequential_stage rbs mp ef r ss' = sequential_stage rbs mp ef r ss.
  Proof.
    intros H. revert r. induction H as [| s s' ss ss' (v & c & ->) H IH]; intros r; [reflexivity |].
    cbn [sequential_stage].
    change (accept_move_and_sample_leaves rbs mp ef r (with_move s (other_rule (s_move s) v c)))
      with (accept_move_and_sample_leaves rbs mp ef r s).
    destruct (accept_move_and_sample_leaves _ _ _ _ _) as [r' a]. now rewrite IH.
  Qed.

  Lemma split_trees_bits b it km bits p v c : inv b -> tree_inv b (snd it) -> 8 <= bits ->
    (forall w, entry (max_split b) w < 2 ^ split_bits b - 1) ->
    (forall w, 0 <= entry (max_split b) w < 2 ^ bits) ->
    (m_grow (move_of b km it) = true -> v = m_grow_var (move_of b km it) /\ c = m_grow_split (move_of b km it)) ->
    apply_moves_to_split_trees bits (t_split (snd it)) (other_rule (move_of b km it) v c) p =
    apply_moves_to_split_trees (split_bits b) (t_split (snd it)) (move_of b km it) p.
  Proof.
    intros I TI Hb W Hm ER. pose proof (in_setup _ I) as SO.
    destruct (move_of_cases b km it SO TI) as (H1 & _).
    set (m := move_of b km it) in *. unfold apply_moves_to_split_trees. cbv zeta.
    cbn [other_rule m_grow m_node m_grow_split]. f_equal.
    pose proof (ti_split _ _ TI) as Ls.
    destruct H1 as [MG MA CG GP HV RO X | MG MA PR D1 | N1 N2 N3 N4 N5].
    - destruct (ER MG) as [-> ->].
      pose proof (can_grow_bounds b _ _ CG) as Hn. rewrite MG.
      destruct RO as [RO | SP].
      + pose proof (rule_fits b (snd it) _ _ _ SO TI RO ltac:(lia)) as F1.
        pose proof (rule_fits_bits b (snd it) bits _ _ _ SO TI Hb Hm RO ltac:(lia)) as F2.
        now rewrite !wrap_small by (unfold holds in *; lia).
      + exfalso. specialize (W (m_grow_var m)).
        rewrite (spill_max b SO (snd it) TI (m_node m) (m_grow_var m)) in W;
          [lia | apply CG | lia | apply SP | apply SP].
    - rewrite MG. now rewrite !scatter_set_over by lia.
    - assert (zlen (t_split (snd it)) <= if m_grow m then m_node m else zlen (t_split (snd it))).
      { destruct (m_grow m); lia. }
      now rewrite !scatter_set_over by lia.
  Qed.

  Lemma final_tree_rule bits bits' S m v c a : s_move S = m ->
    apply_moves_to_split_trees bits' (t_split (s_tree S)) (other_rule m v c) (a_to_prune a) =
    apply_moves_to_split_trees bits (t_split (s_tree S)) m (a_to_prune a) ->
    final_tree bits' (with_move S (other_rule m v c)) a = final_tree bits S a.
  Proof. intros <- H. unfold final_tree. cbn [with_move s_tree s_move]. now rewrite H. Qed.

  Lemma step_bits b k bits : inv b -> 8 <= bits ->
    (forall v, entry (max_split b) v < 2 ^ split_bits b - 1) ->
    (forall v, 0 <= entry (max_split b) v < 2 ^ bits - 1) ->
    step (bits_state bits b) k = bits_state bits (step b k).
  Proof.
    intros I Hb W Hm. unfold step, sample_trees, accept_moves_and_sample_leaves. cbv zeta.
    rewrite !parallel_stage_map.
    cbn [bits_state trees sigma2 resid resid_batch_size min_points_per_leaf split_bits].
    set (km := KSplit _ 2 1). set (ka := KSplit _ 2 0).
    assert (HE : forall it, In it (enumerate (trees b)) -> tree_inv b (snd it)).
    { intros [i t] Hi. unfold enumerate in Hi. apply in_combine_r in Hi. now apply (in_trees _ I). }
    assert (ST : forall it, In it (enumerate (trees b)) -> exists v c, stage_of (bits_state bits b) km ka it =
      with_move (stage_of b km ka it) (other_rule (move_of b km it) v c) /\
      (m_grow (move_of b km it) = true -> v = m_grow_var (move_of b km it) /\ c = m_grow_split (move_of b km it))).
    { intros it Hi. apply stage_bits; auto. intros v. apply Hm. }
    assert (SM : forall it, s_move (stage_of b km ka it) = move_of b km it).
    { intros it. unfold stage_of, parallel_stage_tree. destruct (compute_count_trees _ _ _). reflexivity. }
    assert (TS : forall it, t_split (s_tree (stage_of b km ka it)) = t_split (snd it)).
    { intros it. unfold stage_of, parallel_stage_tree. destruct (compute_count_trees _ _ _). reflexivity. }
    rewrite (sequential_bits _ _ _ (map (stage_of b km ka) (enumerate (trees b)))).
    2: { clear - ST SM. revert ST. generalize (enumerate (trees b)). induction l as [| it l IH]; intros ST; constructor.
         - destruct (ST it (or_introl eq_refl)) as (v & c & E & _). exists v, c. now rewrite SM.
         - apply IH. intros it' Hi. apply ST. now right. }
    set (ss := map (stage_of b km ka) (enumerate (trees b))).
    set (ss' := map (stage_of (bits_state bits b) km ka) (enumerate (trees b))).
    change (exp_factor (zlen (trees b)) (sigma2 (bits_state bits b))) with (exp_factor (zlen (trees b)) (sigma2 b)).
    destruct (sequential_stage _ _ _ _ ss) as [r aa].
    assert (TT : map2 (final_tree bits) ss' aa = map2 (final_tree (split_bits b)) ss aa).
    { unfold ss, ss'. clear ss ss'. revert aa HE ST. generalize (enumerate (trees b)) as l.
      induction l as [| it l IH]; intros [| a aa] HE ST; [reflexivity | reflexivity | reflexivity |].
      cbn [map map2]. apply (f_equal2 cons); [| apply IH; intros; [apply HE | apply ST]; now right].
      destruct (ST it (or_introl eq_refl)) as (v & c & -> & ER).
      apply final_tree_rule; [apply SM |]. rewrite TS. apply split_trees_bits; auto.
      - apply HE. now left.
      - intros w. specialize (Hm w). lia. }
    rewrite TT.
    assert (MM : Forall2 (fun m m' => m_grow m' = m_grow m /\ m_allowed m' = m_allowed m)
      (sample_moves b km) (sample_moves (bits_state bits b) km)).
    { rewrite !sample_moves_map. change (trees (bits_state bits b)) with (trees b).
      clear TT SM TS. clear ss ss'. revert HE. generalize (enumerate (trees b)) as l.
      induction l as [| it l IH]; intros HE; constructor.
      - destruct (move_bits b it km bits) as (v & c & -> & _); auto.
        + apply HE. now left.
        + intros w. apply Hm.
      - apply IH. intros; apply HE; now right. }
    set (mm := sample_moves b km) in *. set (mm' := sample_moves (bits_state bits b) km) in *.
    assert (M1 : map m_grow mm' = map m_grow mm).
    { clear - MM. induction MM as [| m m' l l' [E1 E2] H IH]; cbn [map]; congruence. }
    assert (M2 : map (fun m => m_allowed m && negb (m_grow m)) mm' = map (fun m => m_allowed m && negb (m_grow m)) mm).
    { clear - MM. induction MM as [| m m' l l' [E1 E2] H IH]; cbn [map]; congruence. }
    assert (M3 : map2 (fun a m => a_acc a && m_grow m) aa mm' = map2 (fun a m => a_acc a && m_grow m) aa mm).
    { clear - MM. revert aa. induction MM as [| m m' l l' [E1 E2] H IH]; intros [| a aa]; cbn [map2];
        rewrite ?IH; congruence. }
    assert (M4 : map2 (fun a m => a_acc a && negb (m_grow m)) aa mm' = map2 (fun a m => a_acc a && negb (m_grow m)) aa mm).
    { clear - MM. revert aa. induction MM as [| m m' l l' [E1 E2] H IH]; intros [| a aa]; cbn [map2];
        rewrite ?IH; congruence. }
    rewrite M1, M2, M3, M4.
    unfold sample_sigma, set_sigma2, bits_state.
    cbn [trees resid sigma2 grow_prop_count grow_acc_count prune_prop_count prune_acc_count p_nonterminal
      p_propose_grow sigma2_alpha sigma2_beta max_split split_bits y X min_points_per_leaf resid_batch_size
      count_batch_size ratios].
    reflexivity.
  Qed.

  Lemma chain_reached s k n : reached s (chain (init_of s) k n).
  Proof. induction n; cbn [chain]; [apply reached_init | now apply reached_step]. Qed.

  (** C39. The type of the cutpoints has no effect on the sampler: with any
      two types that hold max_split + 1 the chain is the same at every step (so
      a cutpoint never wraps around, since in a large enough type it can not).
      To hold max_split is not enough, see C39_cutpoint_type_refuted. *)
  Theorem C39_cutpoint_type : forall s bits k n, settings_ok s ->
    (forall m, In m (i_max_split s) -> holds (i_split_bits s) (m + 1)) ->
    8 <= bits -> (forall m, In m (i_max_split s) -> holds bits (m + 1)) ->
    same_sample (chain (init_of s) k n) (chain (init_of (with_split_bits s bits)) k n).
  Proof.
    intros s bits k n OK Hs Hb Hm.
    assert (E : chain (init_of (with_split_bits s bits)) k n = bits_state bits (chain (init_of s) k n)).
    { change (init_of (with_split_bits s bits)) with (bits_state bits (init_of s)).
      induction n as [| n IH]; [reflexivity |]. cbn [chain]. rewrite IH.
      pose proof (chain_reached s k n) as R.
      destruct (reached_fields s _ R) as (_ & _ & EM & _ & _ & _ & _ & _ & EB & _).
      assert (G : forall B, 8 <= B -> (forall m, In m (i_max_split s) -> holds B (m + 1)) ->
        forall v, 0 <= entry (i_max_split s) v < 2 ^ B - 1).
      { intros B HB HG v. assert (PB : 2 ^ 8 <= 2 ^ B) by (apply Z.pow_le_mono_r; lia). change (2 ^ 8) with 256 in PB.
        unfold entry. destruct (nth_in_or_default (Z.to_nat v) (i_max_split s) 0) as [Hin | ->]; [| lia].
        pose proof (ok_max_split _ OK _ Hin). specialize (HG _ Hin). unfold holds in HG. lia. }
      apply step_bits; auto.
      - now apply (reached_inv s OK).
      - rewrite EM, EB. intros v. apply (G _ (ok_bits _ OK) Hs).
      - rewrite EM. apply (G _ Hb Hm). }
    rewrite E. repeat split.
  Qed.
End Props.

(** The hypotheses are met by the example settings, for all the types, and a
    type that does not hold max_split changes the result: with 1 bit a cutpoint
    2 is stored as 0. *)
Example types_example :
  settings_ok ex_settings /\ (forall m, In m (i_max_split ex_settings) -> holds 8 (m + 1) /\ holds 16 (m + 1)) /\
  map (fun bits => map t_split (trees (chain (zo := zclip) (foo := xclip) (g := xrng)
    (init_of (foo := xclip) (with_split_bits ex_settings bits)) (KRoot 0) 3))) [8; 16; 1] =
  [[[0; 1; 0; 2; 0; 0; 0; 0]; [0; 2; 0; 0; 0; 0; 0; 0]; [0; 1; 2; 0; 0; 0; 0; 0]];
   [[0; 1; 0; 2; 0; 0; 0; 0]; [0; 2; 0; 0; 0; 0; 0; 0]; [0; 1; 2; 0; 0; 0; 0; 0]];
   [[0; 1; 0; 0; 0; 0; 0; 0]; [0; 1; 0; 0; 0; 0; 0; 0]; [0; 1; 0; 0; 0; 0; 0; 0]]].
Proof.
  split; [apply ex_settings_ok |]. split; [intros m [<- | [<- | []]]; unfold holds; lia |].
  vm_compute. reflexivity.
Qed.

Print Assumptions C39_minimal_dtype.
Print Assumptions C39_stored_values.
Print Assumptions C39_cutpoint_type.
