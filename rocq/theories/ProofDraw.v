(** In exact arithmetic: what the sums of residuals computed by a step are, and
    the value of each new leaf. One tree. *)
From Coq Require Import ZArith List Bool Lia Reals Lra.
From Verif Require Import Base LemBase ModelJaxext ModelGrove ModelStep SpecTree
  SpecSampling SpecRange Laws SpecPosterior ProofTree ProofSampling ProofCategorical ProofRange
  ProofAggregate ProofRoute ProofMoves ProofStep ProofLeaf.
Import ListNotations.
Open Scope Z_scope.
Ltac Zify.zify_post_hook ::= Z.div_mod_to_equations.

(** the values at the positions where the index is [i] *)
Definition values_at {A} (idx : list Z) (vals : list A) (i : Z) : list A :=
  map snd (filter (fun p => fst p =? i) (combine idx vals)).

Lemma values_at_cons : forall A j idx (v : A) vals i,
  values_at (j :: idx) (v :: vals) i =
  if j =? i then v :: values_at idx vals i else values_at idx vals i.
Proof. intros. unfold values_at. cbn [combine filter fst]. now destruct (j =? i). Qed.

Lemma sum_at_values : forall idx vals i,
  sum_at Rplus 0%R idx vals i = rsum (values_at idx vals i).
Proof.
  induction idx as [| j idx IH]; intros vals i; auto.
  destruct vals as [| v vals]; auto. rewrite values_at_cons. cbn [sum_at]. rewrite IH.
  destruct (j =? i); auto.
Qed.

Lemma zlen_values_at : forall A idx (vals : list A) i, zlen idx = zlen vals ->
  zlen (values_at idx vals i) = occ idx i.
Proof.
  induction idx as [| j idx IH]; intros [| v vals] i H; rewrite ?zlen_cons, ?zlen_nil in H; auto;
    try (pose proof (zlen_nonneg _ vals); lia); try (pose proof (zlen_nonneg _ idx); lia).
  rewrite values_at_cons, occ_cons. destruct (j =? i); cbn [b2z]; rewrite ?zlen_cons, IH; lia.
Qed.

Lemma sum_at_shift : forall idx (r : list R) (f : Z -> R) i, zlen idx = zlen r ->
  sum_at Rplus 0%R idx (map2 Rplus r (map f idx)) i =
  (sum_at Rplus 0%R idx r i + IZR (occ idx i) * f i)%R.
Proof.
  induction idx as [| j idx IH]; intros [| x r] f i H; rewrite ?zlen_cons, ?zlen_nil in H.
  - rewrite occ_nil. cbn [map map2 sum_at]. lra.
  - pose proof (zlen_nonneg _ r). lia.
  - pose proof (zlen_nonneg _ idx). lia.
  - cbn [map map2 sum_at]. rewrite IH, occ_cons, plus_IZR by lia.
    destruct (Z.eqb_spec j i) as [-> |]; cbn [b2z]; lra.
Qed.

Lemma sum_at_collapse_node : forall n idx (r : list R), 1 <= n ->
  sum_at Rplus 0%R (map (collapse n) idx) r n =
  (sum_at Rplus 0%R idx r (2 * n) + sum_at Rplus 0%R idx r (2 * n + 1) +
   sum_at Rplus 0%R idx r n)%R.
Proof.
  intros n. induction idx as [| j idx IH]; intros r Hn; [cbn; lra |].
  destruct r as [| x r]; [cbn; lra |].
  cbn [map sum_at]. rewrite IH by auto. unfold collapse at 1.
  destruct (Z.eqb_spec j (2 * n)), (Z.eqb_spec j (2 * n + 1)); cbn [orb]; try lia;
    rewrite ?Z.eqb_refl; destruct (Z.eqb_spec j n); try lia; lra.
Qed.

Lemma sum_at_collapse_other : forall n idx (r : list R) i, i <> n -> i <> 2 * n -> i <> 2 * n + 1 ->
  sum_at Rplus 0%R (map (collapse n) idx) r i = sum_at Rplus 0%R idx r i.
Proof.
  intros n. induction idx as [| j idx IH]; intros r i H1 H2 H3; auto.
  destruct r as [| x r]; auto. cbn [map sum_at]. rewrite IH by auto. unfold collapse at 1.
  destruct (Z.eqb_spec j (2 * n)), (Z.eqb_spec j (2 * n + 1)); cbn [orb]; auto;
    destruct (Z.eqb_spec n i), (Z.eqb_spec j i); auto; lia.
Qed.

Lemma sum_at_0 : forall idx (r : list R) i, ~ In i idx -> sum_at Rplus 0%R idx r i = 0%R.
Proof.
  induction idx as [| j idx IH]; intros r i H; auto. destruct r as [| x r]; auto.
  cbn [sum_at]. destruct (Z.eqb_spec j i) as [-> |]; [elim H; now left |].
  apply IH. intros Hin; apply H; now right.
Qed.

(** [F rops] is [R]; make the terms syntactically equal for [lia] *)
Ltac rlia := try lia; cbn [F rops] in *; lia.

Section Draw.
  Context {zo : zoob} {foo : foob rops}.
  Variable b : @bart rops.
  Hypothesis SO : setup_ok b.
  Let d := bd b.

  Variable t : @tree rops.
  Hypothesis TI : tree_inv b t.
  Let var := t_var t.
  Let sp := t_split t.

  Variable m : @move rops.
  Hypothesis MO : move_ok b t m.
  Hypothesis VE : var_ext b t (m_var_tree m).
  Hypothesis ML : m_left m = 2 * m_node m.
  Hypothesis MR : m_right m = 2 * m_node m + 1.
  Let n := m_node m.

  Variables (kf : key) (ti : Z) (g : rng rops).
  Let st := parallel_stage_tree b kf ti t m.
  Variables (r r' : list (@F rops)) (a : @stage2 rops) (ef : @F rops).
  Hypothesis ACC : accept_move_and_sample_leaves (resid_batch_size b) (min_points_per_leaf b) ef r st
                   = (r', a).
  Hypothesis Hr : zlen r = zlen (X b).
  Let t' := final_tree (split_bits b) st a.
  Let gidx := apply_grow_to_indices m (t_idx t) (X b).
  Let gleaf := adapt_leaf_trees_to_grow_indices (t_leaf t) m.
  Hypothesis HG : m_grow m = true -> exists i, can_grow b t i.
  Hypothesis HA : m_allowed m = false -> ~ decision sp 1.

  (** the residuals without the contribution of this tree *)
  Definition partial_resid : list R :=
    map2 Rplus r (map (zget 0%R (t_leaf t)) (t_idx t)).
  Let prs := partial_resid.

  Let rt0 := sum_resid r gidx (2 ^ d) (resid_batch_size b).
  Let rt1 := map2 fadd rt0 (map2 (fun c v => fmul (fofZ c) v) (s_count_tree st) gleaf).
  Let rt2 := scatter_set rt1 n (fadd (gather fmode rt1 (2 * n)) (gather fmode rt1 (2 * n + 1))).

  Lemma glen : zlen gidx = zlen (X b).
  Proof. exact (gidx_len b t TI m). Qed.

  Lemma prs_grown : prs = map2 Rplus r (map (zget 0%R gleaf) gidx).
  Proof.
    unfold prs, partial_resid. f_equal. pose proof glen as GL.
    pose proof (ti_idx _ _ TI) as TX.
    assert (TL : zlen (t_idx t) = zlen (X b)) by (rewrite TX; apply zlen_map).
    apply (list_ext _ 0%R); rewrite ?zlen_map; [rlia |].
    intros i Hi. rewrite !(zget_map _ _ _ 0) by rlia. symmetry.
    apply (grown_value b SO t TI m MO VE ML MR). rlia.
  Qed.

  Lemma rt0_at : forall i, 0 <= i < 2 ^ d -> zget 0%R rt0 i = sum_at Rplus 0%R gidx r i.
  Proof.
    intros i Hi. unfold rt0, sum_resid. pose proof glen as GL.
    assert (NN : forall j, In j gidx -> 0 <= j).
    { intros j Hj. pose proof (gidx_range b SO t TI m MO VE 0 j Hj). rlia. }
    assert (E : zget 0%R (aggregate_scatter (@fadd rops) 0%R r gidx (2 ^ d)) i = sum_at Rplus 0%R gidx r i).
    { apply (aggregate_scatter_sum Rplus 0%R); auto; intros; cbn; lra. }
    pose proof (so_rbs _ SO) as RB. destruct (resid_batch_size b) as [bs |]; auto.
    cbn [rops fadd f0]. rewrite (aggregate_batched_eq Rplus 0%R); auto; try (intros; lra).
    exact (eq_trans Hr (eq_sym GL)).
  Qed.

  Lemma len_rt0 : zlen rt0 = 2 ^ d.
  Proof. unfold rt0. apply zlen_sum_resid. apply Z.pow_nonneg. lia. Qed.

  Lemma len_rt1 : zlen rt1 = 2 ^ d.
  Proof.
    pose proof (st_lens b SO t TI m MO VE ML MR kf ti g) as (L1 & L2 & _). fold st in L2. fold d in L2.
    pose proof (zlen_gleaf b t TI m) as LG. fold gleaf in LG. fold d in LG.
    pose proof len_rt0. unfold rt1. rewrite !zlen_map2. rlia.
  Qed.

  (** sum of the partial residuals in a leaf after growing *)
  Lemma rt1_at : forall i, 0 <= i < 2 ^ d -> zget 0 (s_count_tree st) i = occ gidx i ->
    zget 0%R rt1 i = sum_at Rplus 0%R gidx prs i.
  Proof.
    intros i Hi Hc. pose proof glen as GL.
    pose proof (st_lens b SO t TI m MO VE ML MR kf ti g) as (L1 & L2 & _). fold st in L2. fold d in L2.
    pose proof (zlen_gleaf b t TI m) as LG. fold gleaf in LG. fold d in LG.
    unfold rt1. rewrite (zget_map2 _ _ _ _ _ 0%R 0%R).
    - rewrite (zget_map2 _ _ _ _ _ 0 0%R) by rlia. rewrite rt0_at, Hc by auto.
      rewrite prs_grown, sum_at_shift by rlia. reflexivity.
    - pose proof len_rt0. rlia.
    - rewrite zlen_map2. rlia.
  Qed.

  (** counts of the children of the moved node *)
  Lemma count_other : forall i, 0 <= i < 2 ^ d -> i <> n -> 1 <= n ->
    zget 0 (s_count_tree st) i = occ gidx i.
  Proof.
    intros i Hi Ni Hn. pose proof (pow_heap b SO m) as Hp. fold d in Hp.
    unfold st, parallel_stage_tree. fold gidx.
    destruct (compute_count_trees gidx m (count_batch_size b)) as [ct c] eqn:Ec. cbn [s_count_tree].
    pose proof (gidx_range b SO t TI m MO VE 0) as GR. fold gidx in GR. pose proof glen as GL.
    destruct (counts_spec b SO t m VE ML MR gidx ct c Ec) as (_ & C1 & C2).
    { intros j Hj. apply GR in Hj. rlia. }
    { rewrite GL. apply (so_n _ SO). }
    fold n d in C1, C2. destruct (Z.lt_ge_cases n (heap_size d)).
    - destruct (C1 ltac:(rlia)) as (_ & _ & _ & C). rewrite C by rlia.
      destruct (Z.eqb_spec i n); auto; rlia.
    - apply C2; auto; rlia.
  Qed.

  Lemma n_pos : 1 <= n.
  Proof.
    pose proof (heap2 b SO). destruct MO as [MG MA CG GP HV RO EX | MG MA PR D1 | N1 N2 N3 N4 N5].
    - pose proof (can_grow_bounds b t n CG). rlia.
    - destruct PR as [[H1 _] _]. auto.
    - fold n in N1. rlia.
  Qed.

  Lemma leaf_sum : forall i, leaf_node (t_split t') i ->
    zget 0%R rt2 i = rsum (values_at (t_idx t') prs i).
  Proof.
    intros i L. pose proof (pow_heap b SO m) as Hp. fold d in Hp. pose proof n_pos as Hn.
    destruct (leaf_kinds b SO t TI m MO VE ML MR kf ti g r r' a ef ACC HG HA i L) as (Hi & H).
    fold d n gidx in Hi, H. rewrite <- sum_at_values.
    pose proof (t'_idx b SO t TI m MO VE ML MR kf ti g a) as E. fold st t' in E. fold d n gidx in E.
    rewrite E. unfold rt2. pose proof len_rt1 as L1.
    rewrite zget_scatter_set_gen by rlia.
    destruct H as [(-> & Hlt & Htp & NI) | (Ni & Hc)].
    - rewrite Z.eqb_refl. rewrite Htp, (proj2 (Z.ltb_lt _ _) Hlt). cbn [andb].
      rewrite sum_at_collapse_node, (sum_at_0 gidx prs n NI) by auto.
      rewrite !(gather_in _ _ 0%R) by rlia.
      rewrite !rt1_at by (try apply count_other; rlia). cbn [rops fadd]. lra.
    - destruct (Z.eqb_spec n i); [rlia |].
      rewrite rt1_at by (try apply count_other; rlia).
      destruct (a_to_prune a); cbn [andb]; auto.
      destruct (Z.ltb_spec n (heap_size d)) as [Hlt | Hge]; auto.
      destruct (Hc Hlt eq_refl). now rewrite sum_at_collapse_other by auto.
  Qed.

  (** the new value of a leaf of the new tree *)
  Lemma leaf_value : forall i, leaf_node (t_split t') i ->
    let rs := values_at (t_idx t') prs i in
    let v := (1 / (INR (length rs) / sigma2 b + IZR (zlen (trees b))))%R in
    zget 0%R (t_leaf t') i =
    (rsum rs * (v / sigma2 b) + r_normal (rng := g) kf (ti * 2 ^ d + i) * sqrt v)%R.
  Proof.
    intros i L rs v. pose proof (leaf_sum i L) as LS.
    destruct (leaf_kinds b SO t TI m MO VE ML MR kf ti g r r' a ef ACC HG HA i L) as (Hi & _).
    pose proof (leaf_count b SO t TI m MO VE ML MR kf ti g r r' a ef ACC HG HA i L) as LC.
    pose proof (leaf_draw b SO t TI m MO VE ML MR kf ti g r r' a ef ACC HG HA i L) as LD.
    fold st in LC, LD. fold t' in LC, LD. fold d in Hi, LD. fold gidx in LD. fold gleaf in LD.
    fold n in LD. fold rt0 in LD. fold rt1 in LD. fold rt2 in LD.
    transitivity (zget f0 (t_leaf t') i); [reflexivity |]. rewrite LD.
    pose proof (st_lens b SO t TI m MO VE ML MR kf ti g) as (L1 & L2 & L3 & L4 & _).
    fold st in L2, L3, L4. fold d in L2, L3, L4. pose proof len_rt1 as LR.
    assert (LR2 : zlen rt2 = 2 ^ d) by (unfold rt2; now rewrite zlen_scatter_set).
    assert (Ev : v = fdiv f1 (fadd (fdiv (fofZ (zget 0 (s_count_tree st) i)) (sigma2 b))
                                   (fofZ (zlen (trees b))))).
    { rewrite LC. rewrite <- (zlen_values_at _ (t_idx t') prs i).
      - fold rs. unfold v. rewrite INR_IZR_INZ. reflexivity.
      - pose proof glen as GL. rewrite prs_grown, zlen_map2, zlen_map.
        pose proof (t'_idx b SO t TI m MO VE ML MR kf ti g a) as E. fold st t' in E. fold d n gidx in E.
        rewrite E. destruct (a_to_prune a && _); rewrite ?zlen_map; rlia. }
    rewrite (zget_map2 _ _ _ _ _ 0%R 0%R) by (rewrite ?zlen_map2; rlia).
    rewrite (zget_map2 _ _ _ _ _ 0%R 0%R) by rlia.
    rewrite LS. fold rs. change (s_prelf st) with
      (s_prelf (parallel_stage_tree b kf ti t m)) in *.
    assert (EP : s_prelf st = precompute_leaf_terms (zlen (trees b)) (sigma2 b) kf ti (s_count_tree st)).
    { unfold st, parallel_stage_tree. destruct (compute_count_trees _ _ _); reflexivity. }
    fold st. rewrite EP. unfold precompute_leaf_terms. cbn [mean_factor centered_leaves]. rewrite L2.
    rewrite (zget_map _ _ _ 0%R) by (rewrite zlen_map; rlia).
    rewrite (zget_map2 _ _ _ _ _ 0%R 0%R)
      by (rewrite ?zlen_map; rewrite ?zlen_arange by rlia; rlia).
    rewrite !(zget_map _ _ _ 0) by (rewrite ?zlen_arange; rlia).
    rewrite zget_arange by rlia. rewrite <- Ev. reflexivity.
  Qed.
End Draw.
