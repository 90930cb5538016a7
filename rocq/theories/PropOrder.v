(** The order of the datapoints does not matter: C42. *)
From Coq Require Import ZArith List Bool Lia Reals Permutation.
From Verif Require Import Base LemBase ModelJaxext ModelGrove ModelStep SpecTree SpecRun Laws
  ProofAggregate ProofLeaf ProofDraw SpecLoop SpecSame SpecOrder PropBatch PropMinZero
  Examples ExampleRun ExampleReal.
Import ListNotations.
Open Scope Z_scope.

(** ** Lists *)
Section Lists.
  Variable n : nat.
  Variable p : list nat.
  Hypothesis perm : permutation_of n p.

  Lemma p_lt i : In i p -> (i < n)%nat.
  Proof. intros H. apply (Permutation_in _ perm) in H. apply in_seq in H. lia. Qed.

  Lemma length_p : length p = n.
  Proof. rewrite (Permutation_length perm). apply seq_length. Qed.

  Lemma length_reorder A d (l : list A) : length l = n -> length (reorder p d l) = length l.
  Proof. intros ->. unfold reorder. rewrite map_length. apply length_p. Qed.

  Lemma zlen_reorder A d (l : list A) : length l = n -> zlen (reorder p d l) = zlen l.
  Proof. intros H. unfold zlen. now rewrite length_reorder. Qed.

  Lemma reorder_default A d d' (l : list A) : length l = n -> reorder p d l = reorder p d' l.
  Proof.
    intros H. apply map_ext_in. intros i Hi. apply nth_indep. rewrite H. now apply p_lt.
  Qed.

  Lemma reorder_map A B (f : A -> B) d d' l : length l = n ->
    map f (reorder p d l) = reorder p d' (map f l).
  Proof.
    intros H. unfold reorder. rewrite map_map. apply map_ext_in. intros i Hi.
    rewrite (nth_indep _ d' (f d)) by (rewrite map_length, H; now apply p_lt).
    symmetry. apply map_nth.
  Qed.

  Lemma map2_map A B C D (f : A -> B -> C) (g1 : D -> A) (g2 : D -> B) l :
    map2 f (map g1 l) (map g2 l) = map (fun x => f (g1 x) (g2 x)) l.
  Proof. induction l as [| x l IH]; auto. cbn [map map2]. now rewrite IH. Qed.

  Lemma reorder_map2 A B C (f : A -> B -> C) da db dc la lb : length la = n -> length lb = n ->
    map2 f (reorder p da la) (reorder p db lb) = reorder p dc (map2 f la lb).
  Proof.
    intros HA HB. unfold reorder. rewrite map2_map. apply map_ext_in. intros i Hi.
    apply p_lt in Hi. symmetry. apply nth_map2; lia.
  Qed.

  Lemma combine_map A B D (g1 : D -> A) (g2 : D -> B) l :
    combine (map g1 l) (map g2 l) = map (fun x => (g1 x, g2 x)) l.
  Proof. induction l as [| x l IH]; auto. cbn [map combine]. now rewrite IH. Qed.

  Lemma reorder_combine A B (da : A) (db : B) la lb : length la = n -> length lb = n ->
    combine (reorder p da la) (reorder p db lb) = reorder p (da, db) (combine la lb).
  Proof.
    intros HA HB. unfold reorder. rewrite combine_map. apply map_ext. intros i.
    symmetry. apply combine_nth. lia.
  Qed.

  Lemma map_nth_seq A (d : A) l : map (fun i => nth i l d) (seq 0 (length l)) = l.
  Proof.
    induction l as [| x l IH]; auto. cbn [length seq map nth]. f_equal.
    rewrite <- seq_shift, map_map. exact IH.
  Qed.

  Lemma reorder_permutation A d (l : list A) : length l = n -> Permutation (reorder p d l) l.
  Proof.
    intros H. rewrite <- (map_nth_seq _ d l) at 2. rewrite H. unfold reorder.
    now apply Permutation_map.
  Qed.

  Lemma fold_left_permutation A B (f : B -> A -> B) l l' :
    (forall a x y, f (f a x) y = f (f a y) x) -> Permutation l l' ->
    forall a, fold_left f l a = fold_left f l' a.
  Proof.
    intros H P. induction P; intros a; cbn [fold_left]; auto.
    - now rewrite H.
    - now rewrite IHP1.
  Qed.

  Definition updf {A} (n : nat) (f : A -> A) (l : list A) : list A :=
    match nth_error l n with Some x => upd n (f x) l | None => l end.

  Lemma updf_comm A (f1 f2 : A -> A) : (forall x, f2 (f1 x) = f1 (f2 x)) -> forall (l : list A) i j,
    updf j f2 (updf i f1 l) = updf i f1 (updf j f2 l).
  Proof.
    intros H l.
    assert (C : forall m (f : A -> A) (x : A) l, updf (S m) f (x :: l) = x :: updf m f l).
    { intros m f x l0. unfold updf. cbn [nth_error]. destruct (nth_error l0 m); reflexivity. }
    assert (Z : forall (f : A -> A) (x : A) l, updf 0 f (x :: l) = f x :: l) by reflexivity.
    induction l as [| x l IH]; intros [| i] [| j]; try reflexivity; rewrite ?Z, ?C, ?Z, ?C.
    - now rewrite H.
    - reflexivity.
    - reflexivity.
    - now rewrite IH.
  Qed.

  Lemma scatter_upd_comm A (f1 f2 : A -> A) (l : list A) : (forall x, f2 (f1 x) = f1 (f2 x)) -> forall i j,
    scatter_upd (scatter_upd l i f1) j f2 = scatter_upd (scatter_upd l j f2) i f1.
  Proof.
    intros H i j.
    assert (U : forall (f : A -> A) (l : list A) i, scatter_upd l i f =
      if in_bounds (zlen l) (norm_index (zlen l) i) then updf (Z.to_nat (norm_index (zlen l) i)) f l else l)
      by reflexivity.
    rewrite (U f2 (scatter_upd l i f1)), (U f1 (scatter_upd l j f2)), !zlen_scatter_upd, (U f1 l), (U f2 l).
    destruct (in_bounds (zlen l) (norm_index (zlen l) i)), (in_bounds (zlen l) (norm_index (zlen l) j)); auto.
    now apply updf_comm.
  Qed.

  Lemma aggregate_permutation A (add : A -> A -> A) zero da values indices size :
    (forall a x y, add (add a x) y = add (add a y) x) -> length values = n -> length indices = n ->
    aggregate_scatter add zero (reorder p da values) (reorder p 0 indices) size =
    aggregate_scatter add zero values indices size.
  Proof.
    intros H HV HI. unfold aggregate_scatter. rewrite reorder_combine by auto.
    apply fold_left_permutation.
    - intros a x y. apply scatter_upd_comm. intros z. apply H.
    - apply reorder_permutation. rewrite combine_length. lia.
  Qed.

  Lemma add32_comm a x y : add32 (add32 a x) y = add32 (add32 a y) x.
  Proof.
    unfold add32, wrap. rewrite !Zplus_mod_idemp_l. f_equal. lia.
  Qed.

  Lemma count_permutation idx size bs : valid_batch bs -> length idx = n ->
    count_datapoints_per_leaf (reorder p 0 idx) size bs = count_datapoints_per_leaf idx size bs.
  Proof.
    intros Hb HI. rewrite (count_none (reorder p 0 idx)), (count_none idx) by auto.
    unfold count_datapoints_per_leaf. rewrite (reorder_map _ _ _ _ 0) by auto.
    apply aggregate_permutation; auto.
    - apply add32_comm.
    - now rewrite map_length.
  Qed.
End Lists.

(** ** One step *)
Section Real.
  Context {zo : zoob} {foo : foob rops} {g : rng rops}.
  Variable n : nat.
  Variable p : list nat.
  Hypothesis perm : permutation_of n p.

  Definition order_tree (t : @tree rops) : @tree rops :=
    {| t_leaf := t_leaf t; t_var := t_var t; t_split := t_split t;
       t_idx := reorder p 0 (t_idx t); t_aff := t_aff t |}.
  Definition order_stage (s : @stage1 rops) : @stage1 rops :=
    {| s_tree := order_tree (s_tree s); s_move := s_move s; s_count_tree := s_count_tree s;
       s_counts := s_counts s; s_ltp := s_ltp s; s_prelkv := s_prelkv s; s_prelf := s_prelf s |}.
  Definition order_state (b : @bart rops) : @bart rops :=
    {| trees := map order_tree (trees b); resid := reorder p 0%R (resid b); sigma2 := sigma2 b;
       grow_prop_count := grow_prop_count b; grow_acc_count := grow_acc_count b;
       prune_prop_count := prune_prop_count b; prune_acc_count := prune_acc_count b;
       p_nonterminal := p_nonterminal b; p_propose_grow := p_propose_grow b;
       sigma2_alpha := sigma2_alpha b; sigma2_beta := sigma2_beta b;
       max_split := max_split b; split_bits := split_bits b;
       y := reorder p 0%R (y b); X := reorder p [] (X b);
       min_points_per_leaf := min_points_per_leaf b;
       resid_batch_size := resid_batch_size b; count_batch_size := count_batch_size b;
       ratios := ratios b |}.

  Definition size_ok (b : @bart rops) : Prop :=
    length (X b) = n /\ sized b /\ valid_batch (resid_batch_size b) /\ valid_batch (count_batch_size b).

  Lemma order_moves b k : sample_moves (order_state b) k = sample_moves b k.
  Proof.
    unfold sample_moves. cbn [order_state trees]. rewrite enumerate_map, map_map, zlen_map.
    apply map_ext. intros [i t]. reflexivity.
  Qed.

  Lemma order_grow (m : @move rops) idx X : length idx = n -> length X = n ->
    apply_grow_to_indices m (reorder p 0 idx) (reorder p [] X) = reorder p 0 (apply_grow_to_indices m idx X).
  Proof.
    intros HI HX. unfold apply_grow_to_indices. cbv zeta.
    rewrite (reorder_map n p perm _ _ _ _ false) by auto.
    apply (reorder_map2 n p perm); auto. now rewrite map_length.
  Qed.

  Lemma length_grow (m : @move rops) idx X : length idx = n -> length X = n ->
    length (apply_grow_to_indices m idx X) = n.
  Proof. intros HI HX. unfold apply_grow_to_indices. rewrite length_map2, map_length. rlia. Qed.

  Lemma sized_idx b t : size_ok b -> In t (trees b) -> length (t_idx t) = n.
  Proof.
    intros (HX & [_ S] & _) Ht. specialize (S t Ht). unfold zlen in S. rlia.
  Qed.

  Lemma order_parallel b moves k : size_ok b ->
    parallel_stage (order_state b) moves k = map order_stage (parallel_stage b moves k) /\
    (forall s, In s (parallel_stage b moves k) -> length (t_idx (s_tree s)) = n).
  Proof.
    intros S. pose proof S as (HX & _ & _ & Hc).
    assert (HE : forall it, In it (enumerate (trees b)) -> In (snd it) (trees b)).
    { intros [i t] Hi. unfold enumerate in Hi. now apply in_combine_r in Hi. }
    unfold parallel_stage. cbn [order_state trees]. rewrite enumerate_map.
    revert moves HE. generalize (enumerate (trees b)) as l.
    induction l as [| it l IH]; intros [| m moves] HE; cbn [map map2 In]; try (split; [easy | intros s []]).
    assert (Hi : length (t_idx (snd it)) = n) by (apply (sized_idx b); auto; apply HE; now left).
    destruct (IH moves (fun it' H => HE it' (or_intror H))) as [E2 N2].
    unfold order_state in E2. cbn [trees] in E2.
    split.
    - f_equal; [| exact E2]. cbn [fst snd].
      unfold parallel_stage_tree. cbn [order_state order_tree t_idx t_leaf t_split t_aff X count_batch_size
        min_points_per_leaf trees sigma2].
      rewrite order_grow by auto. rewrite zlen_map.
      unfold compute_count_trees. rewrite (count_permutation n p perm) by (auto using length_grow).
      reflexivity.
    - intros s [<- | H]; auto.
      unfold parallel_stage_tree. destruct (compute_count_trees _ _ _). cbn [s_tree t_idx].
      now apply length_grow.
  Qed.

  Lemma order_accept rb mp ef r s : valid_batch rb -> length r = n -> length (t_idx (s_tree s)) = n ->
    accept_move_and_sample_leaves (fo := rops) rb mp ef (reorder p 0%R r) (order_stage s) =
    (reorder p 0%R (fst (accept_move_and_sample_leaves (fo := rops) rb mp ef r s)),
     snd (accept_move_and_sample_leaves (fo := rops) rb mp ef r s)).
  Proof.
    intros Hb Hr Hi.
    assert (Z1 : zlen r = zlen (t_idx (s_tree s))) by (unfold zlen; lia).
    assert (Z2 : zlen (reorder p 0%R r) = zlen (reorder p 0 (t_idx (s_tree s)))).
    { rewrite !(zlen_reorder n p perm); auto. }
    rewrite (accept_none rb mp ef r s Hb Z1).
    rewrite (accept_none rb mp ef (reorder p 0%R r) (order_stage s) Hb Z2).
    unfold accept_move_and_sample_leaves. cbv zeta.
    cbn [order_stage order_tree s_tree t_idx t_leaf s_move s_count_tree s_counts s_ltp s_prelkv s_prelf fst snd].
    assert (SR : sum_resid (fo := rops) (reorder p 0%R r) (reorder p 0 (t_idx (s_tree s)))
        (zlen (t_leaf (s_tree s))) None =
      sum_resid (fo := rops) r (t_idx (s_tree s)) (zlen (t_leaf (s_tree s))) None).
    { unfold sum_resid. apply (aggregate_permutation n p perm); auto.
      cbn [fadd rops]. intros. match goal with |- @eq _ ?a ?b => change (@eq R a b) end. ring. }
    rewrite SR. f_equal.
    rewrite (reorder_map n p perm _ _ _ _ 0%R) by auto.
    apply (reorder_map2 n p perm); auto. now rewrite map_length.
  Qed.

  Lemma order_sequential rb mp ef ss : valid_batch rb -> forall r, length r = n ->
    (forall s, In s ss -> length (t_idx (s_tree s)) = n) ->
    sequential_stage (fo := rops) rb mp ef (reorder p 0%R r) (map order_stage ss) =
    (reorder p 0%R (fst (sequential_stage (fo := rops) rb mp ef r ss)), snd (sequential_stage (fo := rops) rb mp ef r ss)).
  Proof.
    intros Hb. induction ss as [| s ss IH]; intros r Hr Hs; [reflexivity |].
    cbn [map sequential_stage].
    assert (Hi : length (t_idx (s_tree s)) = n) by (apply Hs; now left).
    rewrite order_accept by auto.
    destruct (accept_move_and_sample_leaves (fo := rops) rb mp ef r s) as [r1 a] eqn:E. cbn [fst snd].
    assert (H1 : length r1 = n).
    { assert (zlen r1 = Z.of_nat n); [| unfold zlen in *; rlia].
      eapply accept_sized; [| | exact E]; unfold zlen; rlia. }
    rewrite IH; auto.
    - destruct (sequential_stage (fo := rops) rb mp ef r1 ss). reflexivity.
    - intros s' H. apply Hs. now right.
  Qed.

  Lemma order_dot (r : list R) : length r = n ->
    dot (fo := rops) (reorder p 0%R r) (reorder p 0%R r) = dot (fo := rops) r r.
  Proof.
    intros Hr. unfold dot. rewrite (reorder_map2 n p perm _ _ _ _ _ _ 0%R) by auto.
    apply fold_left_permutation.
    - cbn [fadd rops]. intros. match goal with |- @eq _ ?a ?b => change (@eq R a b) end. ring.
    - apply (reorder_permutation n); auto. rewrite length_map2. rlia.
  Qed.

  Lemma order_step b k : size_ok b -> step (order_state b) k = order_state (step b k).
  Proof.
    intros S. pose proof S as (HX & [SR _] & Hb & Hc).
    unfold step, sample_trees, accept_moves_and_sample_leaves. cbv zeta.
    rewrite order_moves.
    destruct (order_parallel b (sample_moves b (KSplit (KSplit k 2 1) 2 1)) (KSplit (KSplit k 2 1) 2 0) S)
      as [EP NI]. rewrite EP.
    cbn [order_state trees sigma2 resid resid_batch_size min_points_per_leaf]. rewrite zlen_map.
    set (ss := parallel_stage b _ _) in *.
    assert (Hr : length (resid b) = n) by (unfold zlen in SR; lia).
    rewrite (order_sequential _ _ _ ss Hb (resid b) Hr NI).
    pose proof (sequential_sized (resid_batch_size b) (min_points_per_leaf b)
      (exp_factor (zlen (trees b)) (sigma2 b)) (Z.of_nat n) ss (resid b)) as HR.
    destruct (sequential_stage _ _ _ _ ss) as [r aa]. cbn [fst snd] in *.
    assert (Lr : length r = n).
    { assert (zlen r = Z.of_nat n); [apply HR | unfold zlen in *; rlia].
      - unfold zlen; rlia.
      - intros s H. unfold zlen. now rewrite NI. }
    clear HR.
    unfold sample_sigma, set_sigma2, order_state.
    cbn [trees resid sigma2 grow_prop_count grow_acc_count prune_prop_count prune_acc_count p_nonterminal
      p_propose_grow sigma2_alpha sigma2_beta max_split split_bits y X min_points_per_leaf resid_batch_size
      count_batch_size ratios].
    rewrite (zlen_reorder n p perm) by auto. rewrite order_dot by auto.
    f_equal.
    clear EP Lr. revert aa NI. generalize ss. clear ss. intros ss.
    induction ss as [| s ss IH]; intros [| a aa] NI; cbn [map map2]; auto.
    f_equal; [| apply IH; intros; apply NI; now right].
    unfold final_tree, order_tree, apply_moves_to_leaf_indices. cbn [order_stage s_tree s_move t_idx t_split t_var t_aff t_leaf].
    f_equal. apply (reorder_map n p perm). apply NI. now left.
  Qed.

  Lemma init_order s : length (i_X s) = n -> length (i_y s) = n ->
    init_of (with_order s p) = order_state (init_of s).
  Proof.
    intros HX HY. unfold init_of, with_order, init, order_state.
    cbn [i_X i_y i_max_split i_split_bits i_num_trees i_p_nonterminal
      i_sigma2_alpha i_sigma2_beta i_min_points i_resid_batch i_count_batch i_save_ratios
      trees resid sigma2 grow_prop_count grow_acc_count prune_prop_count prune_acc_count p_nonterminal
      p_propose_grow sigma2_alpha sigma2_beta max_split split_bits y X min_points_per_leaf resid_batch_size
      count_batch_size ratios].
    rewrite (zlen_reorder n p perm) by auto.
    f_equal.
    assert (E : forall m (t t' : @tree rops), t = order_tree t' -> full m t = map order_tree (full m t')).
    { intros m t t' ->. unfold full. generalize (Z.to_nat m) as c. intros c.
      induction c as [| c IH]; cbn [repeat map]; [reflexivity | now rewrite <- IH]. }
    apply E. unfold order_tree. cbn [t_leaf t_var t_split t_idx t_aff]. f_equal.
    unfold reorder. rewrite map_ext_in with (g := fun _ => 1).
    - unfold full, zlen. rewrite Nat2Z.id.
      assert (L : length (i_y s) = length p) by (rewrite (length_p n p perm); exact HY).
      etransitivity; [exact (f_equal (repeat 1) L) |]. clear.
      induction p as [| i q IH]; cbn [length repeat map]; [reflexivity | now rewrite IH].
    - intros i Hi. apply (p_lt n p perm) in Hi. unfold full, zlen. rewrite Nat2Z.id.
      apply (repeat_spec (length (i_y s))). apply nth_In. rewrite repeat_length. rlia.
  Qed.

  Lemma order_same b : length (resid b) = n -> same_posterior b (order_state b) /\ reordered_points p b (order_state b).
  Proof.
    intros H. split.
    - unfold same_posterior, order_state. cbn [trees sigma2 grow_prop_count grow_acc_count prune_prop_count
        prune_acc_count ratios]. rewrite !map_map. repeat split.
    - unfold reordered_points, order_state. cbn [trees resid]. rewrite map_map. split; reflexivity.
  Qed.

  Lemma chain_size_ok s k m : length (i_X s) = n -> length (i_y s) = n ->
    valid_batch (i_resid_batch s) -> valid_batch (i_count_batch s) -> size_ok (chain (init_of s) k m).
  Proof.
    intros HX HY Hb Hc.
    assert (E : zlen (i_X s) = zlen (i_y s)) by (unfold zlen; rlia).
    split; [| split; [now apply chain_sized | now rewrite chain_resid_batch, chain_count_batch]].
    induction m as [| m IH]; cbn [chain]; auto.
    rewrite <- IH. f_equal.
    unfold step, sample_trees, accept_moves_and_sample_leaves. cbv zeta.
    destruct (sequential_stage _ _ _ _ _) as [r aa]. reflexivity.
  Qed.
End Real.

(** C42. In exact arithmetic, with the datapoints in another order the chain
    has the same trees, leaf values, noise variances, counters and acceptance
    ratios at every step, and the residuals and leaf indices follow the
    data. *)
Theorem C42_data_order : forall {zo : zoob} {foo : foob rops} {g : rng rops} (s : @settings rops) p k n,
  length (i_X s) = length (i_y s) ->
  valid_batch (i_resid_batch s) -> valid_batch (i_count_batch s) ->
  permutation_of (length (i_y s)) p ->
  same_posterior (chain (init_of s) k n) (chain (init_of (with_order s p)) k n) /\
  reordered_points p (chain (init_of s) k n) (chain (init_of (with_order s p)) k n).
Proof.
  intros zo foo g s p k n HX Hb Hc P.
  assert (E : chain (init_of (with_order s p)) k n = order_state p (chain (init_of s) k n)).
  { rewrite (init_order _ p P s) by auto. induction n as [| n IH]; [reflexivity |]. cbn [chain]. rewrite IH.
    apply (order_step _ p P). now apply chain_size_ok. }
  rewrite E. apply (order_same (length (i_y s))).
  pose proof (chain_size_ok _ s k n HX eq_refl Hb Hc) as (H1 & [H2 _] & _).
  unfold zlen in H2. rlia.
Qed.

(** The hypotheses are met by the example settings with the reverse order; and
    the example run in fixed-point arithmetic, where sums are exact, gives the
    same trees and permuted leaf indices. *)
Example order_example :
  length (i_X real_settings) = length (i_y real_settings) /\
  valid_batch (i_resid_batch real_settings) /\ valid_batch (i_count_batch real_settings) /\
  permutation_of (length (i_y real_settings)) [5; 4; 3; 2; 1; 0]%nat.
Proof.
  split; [reflexivity |]. split; [intros k H; injection H as <-; lia |].
  split; [intros k H; discriminate H |].
  change [5; 4; 3; 2; 1; 0]%nat with (rev (seq 0 6)).
  apply Permutation_sym, Permutation_rev.
Qed.

Example order_run :
  map (fun p =>
    let b := chain (zo := zclip) (foo := xclip) (g := xrng)
      (init_of (foo := xclip) (with_order ex_settings p)) (KRoot 0) 3 in
    map (fun t => (t_split t, t_idx t)) (trees b)) [[0; 1; 2; 3; 4; 5]; [5; 4; 3; 2; 1; 0]]%nat =
  [[([0; 1; 0; 2; 0; 0; 0; 0], [7; 2; 6; 7; 2; 7]);
    ([0; 2; 0; 0; 0; 0; 0; 0], [2; 2; 3; 3; 2; 3]);
    ([0; 1; 2; 0; 0; 0; 0; 0], [5; 3; 3; 3; 4; 3])];
   [([0; 1; 0; 2; 0; 0; 0; 0], [7; 2; 7; 6; 2; 7]);
    ([0; 2; 0; 0; 0; 0; 0; 0], [3; 2; 3; 3; 2; 2]);
    ([0; 1; 2; 0; 0; 0; 0; 0], [3; 4; 3; 3; 3; 5])]].
Proof. vm_compute. reflexivity. Qed.

Print Assumptions C42_data_order.
