(** The proposals are valid moves: what [choose_move] can return on a tree
    satisfying the invariant. *)
From Coq Require Import ZArith List Bool Lia.
From Verif Require Import Base LemBase ModelJaxext ModelGrove ModelStep SpecTree
  SpecSampling SpecRange Laws ProofTree ProofSampling ProofCategorical ProofRange
  ProofAggregate ProofRoute.
Import ListNotations.
Open Scope Z_scope.
Ltac Zify.zify_post_hook ::= Z.div_mod_to_equations.

(** a rule (v, s) that can be stored at node [i]: either a valid one, or one on
    something with no cutpoints *)
Definition rule_ok (ms var sp : list Z) (i v s : Z) : Prop :=
  0 <= v /\
  ((1 <= entry ms v /\ available var sp ms i v s) \/
   (entry ms v = 0 /\ 1 <= s <= Z.log2 i + 1)).

(** a rule (v, s) that is proposed because of the wraparound of the lower end of
    the range *)
Definition spilled (bits : Z) (ms var sp : list Z) (i v s : Z) : Prop :=
  0 <= v < zlen ms /\ 0 <= s < 2 ^ bits /\ spill bits var sp i v.

Lemma zget_bool_true : forall (l : list bool) i,
  is_true_at l i -> 0 <= i < zlen l /\ zget false l i = true.
Proof.
  intros l i [H0 H]. assert (Z.to_nat i < length l)%nat by (apply nth_error_Some; congruence).
  split; [unfold zlen; lia |]. unfold zget. now apply nth_error_nth.
Qed.

Lemma count_zero_zget : forall l, count_nonzero l = 0 -> forall i, zget false l i = false.
Proof.
  intros l H i. rewrite count_nonzero_0 in H.
  destruct (Z.lt_ge_cases i (zlen l)) as [L | L]; [| now rewrite zget_over].
  destruct (Z.le_gt_cases 0 i).
  - apply H. apply zget_In. lia.
  - unfold zget. replace (Z.to_nat i) with O by lia. destruct l; auto. apply H. now left.
Qed.

Lemma count_pos_zget : forall l, count_nonzero l <> 0 <-> exists i, 0 <= i < zlen l /\ zget false l i = true.
Proof.
  intros l. pose proof (count_nonzero_nonneg l). split.
  - intros E. assert (P : 0 < count_nonzero l) by lia. apply count_nonzero_pos in P.
    apply In_zget with (d := false) in P. auto.
  - intros (i & Hi & E). assert (P : 0 < count_nonzero l); [| lia].
    apply count_nonzero_pos. rewrite <- E. now apply zget_In.
Qed.

Lemma masked_weights : forall (fo : fops) mask (w : list F) i,
  zlen mask = zlen w -> 0 <= i < zlen mask ->
  zget f0 (map2 (fun b p => if b : bool then p else f0) mask w) i =
  if zget false mask i then zget f0 w i else f0.
Proof. intros fo mask w i H Hi. rewrite (zget_map2 _ _ _ _ _ false f0) by lia. reflexivity. Qed.

Section Cat0.
  Context {fo : fops} {zo : zoob} {foo : foob fo} {g : rng fo} {fl : flaws fo} {rl : rlaws g}.

  Lemma categorical_zeros : forall k distr,
    distr <> [] -> (forall x, In x distr -> x = f0) ->
    fst (categorical k distr) = zlen distr.
  Proof.
    intros k distr Hn H0. unfold categorical. cbn [fst].
    assert (Hlen : zlen (fcumsum distr) = zlen distr) by (unfold zlen; now rewrite fl_cs_length).
    assert (Hl : 1 <= zlen distr).
    { destruct distr; [congruence | rewrite zlen_cons; pose proof (zlen_nonneg _ distr); lia]. }
    assert (Z : forall x, In x (fcumsum distr) -> x = f0) by (intros x; now apply fl_cs_zeros).
    rewrite (gather_last _ _ f0), (Z (zget f0 _ _)) by (try apply zget_In; lia).
    rewrite ss_right_all; [exact Hlen |].
    intros x Hx. rewrite (Z x Hx). apply rl_unif_to_ge. apply fl_0_nonneg.
  Qed.
End Cat0.

(** ** settings and per-tree invariant *)
Section Inv.
  Context {fo : fops} {zo : zoob} {foo : foob fo}.

  Definition bd (b : bart) : Z := zlen (p_nonterminal b).
  Definition bp (b : bart) : Z := zlen (max_split b).

  Record setup_ok (b : bart) : Prop := {
    so_d : 2 <= bd b <= 64;
    so_p : 1 <= bp b < 2 ^ 64;
    so_bits : 8 <= split_bits b;
    so_ms : forall v, 0 <= entry (max_split b) v < 2 ^ split_bits b;
    so_wrap : (forall v, entry (max_split b) v < 2 ^ split_bits b - 1) \/
              (exists m, min_points_per_leaf b = Some m /\ 1 <= m);
    so_n : zlen (X b) < 2 ^ 32;
    so_ppg_len : zlen (p_propose_grow b) = heap_size (bd b);
    so_ppg : forall i, 1 <= i < heap_size (bd b) ->
      zget f0 (p_propose_grow b) i = zget f0 (p_nonterminal b) (Z.log2 i);
    so_ppg0 : zget f0 (p_propose_grow b) 0 = zget f0 (p_nonterminal b) 0;
    so_pnt : forall x, In x (p_nonterminal b) -> x = f0 \/ flt f0 x = true;
    so_cbs : match count_batch_size b with Some s => 1 <= s | None => True end;
    so_rbs : match resid_batch_size b with Some s => 1 <= s | None => True end
  }.

  Record tree_inv (b : bart) (t : tree) : Prop := {
    ti_leaf : zlen (t_leaf t) = 2 ^ bd b;
    ti_var : zlen (t_var t) = heap_size (bd b);
    ti_split : zlen (t_split t) = heap_size (bd b);
    ti_slot0 : entry (t_split t) 0 = 0;
    ti_var0 : entry (t_var t) 0 = 0;
    ti_stray : no_stray (t_split t);
    ti_vrange : forall i, 0 <= entry (t_var t) i < 2 ^ minimal_unsigned_bits (bp b - 1);
    ti_rules : forall i, decision (t_split t) i ->
      rule_ok (max_split b) (t_var t) (t_split t) i (entry (t_var t) i) (entry (t_split t) i);
    ti_ppg : forall i, decision (t_split t) i -> zget f0 (p_propose_grow b) i <> f0;
    ti_idx : t_idx t = map (fun x => traverse_tree x (t_var t) (t_split t)) (X b);
    ti_aff : match min_points_per_leaf b with
             | None => t_aff t = None
             | Some m => exists a, t_aff t = Some a /\ zlen a = heap_size (bd b) /\
                 forall i, leaf_node (t_split t) i -> i < heap_size (bd b) ->
                   zget false a i = (2 * m <=? occ (t_idx t) i)
             end;
    ti_min : forall m, min_points_per_leaf b = Some m -> decision (t_split t) 1 ->
      forall i, leaf_node (t_split t) i -> m <= occ (t_idx t) i
  }.

  (** a leaf above the bottom level with enough points *)
  Definition can_grow (b : bart) (t : tree) (i : Z) : Prop :=
    leaf_node (t_split t) i /\ i < heap_size (bd b) /\
    forall m, min_points_per_leaf b = Some m -> 2 * m <= occ (t_idx t) i.

  Variable b : bart.
  Hypothesis SO : setup_ok b.

  Let d := bd b.
  Let p := bp b.
  Let ms := max_split b.
  Let bits := split_bits b.

  Lemma heap_ge2 : 2 <= heap_size d.
  Proof.
    pose proof (so_d _ SO) as H. unfold heap_size. fold d in H.
    change 2 with (2 ^ 1). apply Z.pow_le_mono_r; lia.
  Qed.

  Lemma ppg_nonneg : forall i, 0 <= i < heap_size d ->
    zget f0 (p_propose_grow b) i = f0 \/ flt f0 (zget f0 (p_propose_grow b) i) = true.
  Proof.
    intros i Hi. pose proof (so_d _ SO) as Hd. fold d in Hd.
    assert (E : zget f0 (p_propose_grow b) i = zget f0 (p_nonterminal b) (Z.log2 i)).
    { destruct (Z.eq_dec i 0) as [-> | N]; [apply (so_ppg0 _ SO) | apply (so_ppg _ SO); fold d; lia]. }
    rewrite E. apply (so_pnt _ SO). apply zget_In. split; [apply Z.log2_nonneg |].
    change (zlen (p_nonterminal b)) with d.
    destruct (Z.eq_dec i 0) as [-> | N]; [cbn; lia |].
    unfold heap_size in Hi. assert (Z.log2 i < d - 1) by (apply Z.log2_lt_pow2; lia). lia.
  Qed.

  Variable t : tree.
  Hypothesis TI : tree_inv b t.
  Let var := t_var t.
  Let sp := t_split t.

  Lemma zlen_growable : zlen (growable_leaves sp (t_aff t)) = heap_size d.
  Proof.
    unfold growable_leaves. pose proof (ti_aff _ _ TI) as A.
    pose proof (ti_split _ _ TI) as Hs. fold sp d in Hs.
    destruct (min_points_per_leaf b) as [m |].
    - destruct A as (a & -> & La & _). rewrite zlen_map2, zlen_is_actual_leaf. fold d in La. lia.
    - rewrite A, zlen_is_actual_leaf. auto.
  Qed.

  (** the growable mask is right *)
  Lemma growable_spec : forall i, 0 <= i < heap_size d ->
    (zget false (growable_leaves sp (t_aff t)) i = true <-> can_grow b t i).
  Proof.
    intros i Hi. pose proof (ti_split _ _ TI) as Hs. fold sp d in Hs.
    pose proof (is_actual_leaf_spec sp false i (ti_stray _ _ TI)) as IL.
    rewrite zlen_is_actual_leaf in IL. specialize (IL ltac:(lia)).
    unfold growable_leaves, can_grow. pose proof (ti_aff _ _ TI) as A. fold d.
    destruct (min_points_per_leaf b) as [m |].
    - destruct A as (a & -> & La & Ha). fold d in La, Ha.
      rewrite (zget_map2 _ _ _ _ _ false false) by (rewrite ?zlen_is_actual_leaf; lia).
      rewrite andb_true_iff, IL. fold sp. split.
      + intros [L E]. split; auto. split; [lia |]. intros m' Em. injection Em as <-.
        rewrite Ha in E by (auto; lia). now apply Z.leb_le.
      + intros (L & _ & H). split; auto. rewrite Ha by (auto; lia). apply Z.leb_le. auto.
    - rewrite A, IL. fold sp. split; [| tauto]. intros L. split; auto. split; [lia |].
      intros m E; discriminate.
  Qed.

  Lemma can_grow_bounds : forall i, can_grow b t i -> 1 <= i < heap_size d.
  Proof. intros i ((R & _) & H & _). apply reachable_pos in R. fold d in H. lia. Qed.

  Context {g : rng fo} {fl : flaws fo} {rl : rlaws g}.

  Lemma choose_leaf_cases : forall k l ng pc np,
    choose_leaf sp (t_aff t) (p_propose_grow b) k = (l, ng, pc, np) ->
    ng = count_nonzero (growable_leaves sp (t_aff t)) /\
    ((ng <> 0 /\ can_grow b t l /\ zget f0 (p_propose_grow b) l <> f0) \/
     (ng <> 0 /\ l = heap_size d /\
      forall i, can_grow b t i -> zget f0 (p_propose_grow b) i = f0) \/
     (ng = 0 /\ l = 2 * heap_size d /\ forall i, ~ can_grow b t i)).
  Proof.
    intros k l ng pc np E. unfold choose_leaf in E.
    set (mask := growable_leaves sp (t_aff t)) in *.
    set (distr := map2 _ mask (p_propose_grow b)) in *.
    pose proof (ti_split _ _ TI) as Hs. fold sp d in Hs.
    pose proof (so_ppg_len _ SO) as Hp. fold d in Hp.
    pose proof zlen_growable as Hm. fold mask in Hm.
    pose proof heap_ge2 as Hh.
    assert (Hdl : zlen distr = heap_size d) by (unfold distr; rewrite zlen_map2; lia).
    assert (Hdg : forall i, 0 <= i < heap_size d ->
      zget f0 distr i = if zget false mask i then zget f0 (p_propose_grow b) i else f0).
    { intros i Hi. unfold distr. apply masked_weights; lia. }
    destruct (categorical k distr) as [l0 tot] eqn:Ec.
    assert (El0 : l0 = fst (categorical k distr)) by now rewrite Ec.
    injection E as El Eng _ _.
    split; [congruence |].
    destruct (Z.eqb_spec (count_nonzero mask) 0) as [E0 | E0]; cbn [negb] in El.
    - right; right. split; [congruence |]. split; [lia |]. intros i G.
      pose proof (can_grow_bounds i G). apply growable_spec in G; [| lia].
      fold mask in G. rewrite count_zero_zget in G; auto. discriminate.
    - assert (Hnn : forall x, In x distr -> fle f0 x = true).
      { intros x Hx. apply In_zget with (d := f0) in Hx. destruct Hx as (i & Hi & <-).
        rewrite Hdg by lia. destruct (zget false mask i).
        - destruct (ppg_nonneg i) as [-> | P]; [lia | apply fl_0_nonneg | now apply fl_pos_nonneg].
        - apply fl_0_nonneg. }
      assert (Hdec : (exists x, In x distr /\ flt f0 x = true) \/
                     (forall x, In x distr -> x = f0)).
      { assert (H : forall l, (forall x, In x l -> x = f0 \/ flt f0 x = true) ->
          (exists x, In x l /\ flt f0 x = true) \/ (forall x, In x l -> x = f0)).
        { clear. induction l as [| x l IH]; intros H; [right; intros x [] |].
          destruct IH as [(y & Hy & P) | IH].
          - intros; apply H; now right.
          - left. exists y. split; auto. now right.
          - destruct (H x (or_introl eq_refl)) as [-> | P].
            + right. intros y [<- | Hy]; auto.
            + left. exists x. split; auto. now left. }
        apply H. intros x Hx. apply In_zget with (d := f0) in Hx. destruct Hx as (i & Hi & <-).
        rewrite Hdg by lia. destruct (zget false mask i); auto. apply ppg_nonneg. lia. }
      destruct Hdec as [Hex | Hz].
      + left. split; [congruence |].
        destruct (categorical_valid k distr Hnn Hex) as [V1 V2]. rewrite <- El0 in V1, V2.
        rewrite El in V1, V2. rewrite Hdg in V2 by lia.
        destruct (zget false mask l) eqn:Em; [| congruence].
        split; auto. apply growable_spec; [lia |]. auto.
      + right; left. split; [congruence |]. split.
        * rewrite <- El, El0, categorical_zeros; auto.
          intros Hn. rewrite Hn in Hdl. rewrite zlen_nil in Hdl. lia.
        * intros i G. pose proof (can_grow_bounds i G) as Hi.
          assert (Gm : zget false mask i = true) by (apply growable_spec; auto; lia).
          specialize (Hdg i ltac:(lia)). rewrite Gm in Hdg. rewrite <- Hdg.
          apply Hz. apply zget_In. lia.
  Qed.

  (** a leaf at the bottom left exists only if all levels can grow *)
  Lemma bottom_left_leaf : leaf_node sp (heap_size d) ->
    forall i, 1 <= i < heap_size d -> zget f0 (p_propose_grow b) i <> f0.
  Proof.
    intros [R _] i Hi.
    pose proof (so_d _ SO) as Hd. fold d in Hd.
    set (k := Z.log2 i).
    assert (Hk : 0 <= k < d - 1).
    { split; [apply Z.log2_nonneg |]. unfold heap_size in Hi. apply Z.log2_lt_pow2; lia. }
    assert (D : decision sp (2 ^ k)).
    { assert (Hx : exists b0, descends (2 ^ k) b0 (heap_size d)).
      { apply descends_pow.
        - pose proof (pow2_pos k). lia.
        - pose proof heap_ge2. lia.
        - exists (d - 1 - k). split; [lia |]. unfold heap_size.
          replace (d - 1) with (k + (d - 1 - k)) at 1 by lia.
          rewrite Z.pow_add_r by lia. rewrite Z.div_mul; auto.
          pose proof (pow2_pos (d - 1 - k)). lia. }
      destruct Hx as [b0 Hb0]. eapply reachable_above; eauto.
      pose proof (pow2_pos k). lia. }
    pose proof (ti_ppg _ _ TI _ D) as N.
    assert (2 ^ k < heap_size d).
    { unfold heap_size. apply Z.pow_lt_mono_r; lia. }
    pose proof (pow2_pos k ltac:(lia)).
    rewrite (so_ppg _ SO) in N by (fold d; lia).
    rewrite (so_ppg _ SO) by (fold d; lia).
    rewrite Z.log2_pow2 in N by lia. fold k. auto.
  Qed.

  (** ** the rule drawn by a grow proposal *)

  Lemma above_ok : forall l, leaf_node sp l -> forall a b0, 1 <= a -> descends a b0 l ->
    decision sp a /\ rule_ok ms var sp a (entry var a) (entry sp a).
  Proof.
    intros l [R _] a b0 Ha Hb. assert (D : decision sp a) by (eapply reachable_above; eauto).
    split; auto. now apply (ti_rules _ _ TI).
  Qed.

  Lemma var_dtype_all : forall i, var_dtype p var i.
  Proof. intros i a b0 Ha Hb. apply (ti_vrange _ _ TI). Qed.

  Lemma rule_bound : forall i v s, rule_ok ms var sp i v s -> 1 <= i < heap_size d ->
    1 <= s < 2 ^ split_bits b.
  Proof.
    intros i v0 s0 [Hv [[_ [A _]] | [_ A]]] Hi.
    - pose proof (so_ms _ SO v0). fold ms in H. lia.
    - assert (Z.log2 i < d - 1).
      { apply Z.log2_lt_pow2; [lia |]. unfold heap_size in Hi. lia. }
      pose proof (so_d _ SO) as Hd. fold d in Hd. pose proof (so_bits _ SO).
      assert (2 ^ 8 <= 2 ^ split_bits b) by (apply Z.pow_le_mono_r; lia).
      change (2 ^ 8) with 256 in *. lia.
  Qed.

  Lemma above_bound : forall l, leaf_node sp l -> l < heap_size d -> forall a b0, 1 <= a ->
    descends a b0 l -> 1 <= entry sp a < 2 ^ bits.
  Proof.
    intros l L Hl a b0 Ha Hb. destruct (above_ok l L a b0 Ha Hb) as [_ R].
    apply (rule_bound a (entry var a)); auto. pose proof (descends_gt _ _ _ Ha Hb). lia.
  Qed.

  (** a rule on the way to a leaf can have the largest cutpoint only if its
      variable has it *)
  Lemma spill_max : forall l v, leaf_node sp l -> l < heap_size d -> 0 <= v ->
    spill bits var sp l v -> entry ms v = 2 ^ bits - 1.
  Proof.
    intros l v L Hl Hv (a & Ha & Hb & Ev & Es).
    destruct (above_ok l L a _ Ha Hb) as [_ [_ [[_ [A _]] | [_ A]]]];
      rewrite ?Ev, Es in A.
    - pose proof (so_ms _ SO v) as M. fold ms bits in M. lia.
    - exfalso. pose proof (descends_gt _ _ _ Ha Hb).
      assert (Z.log2 a < d - 1).
      { apply Z.log2_lt_pow2; [lia |]. unfold heap_size in Hl. lia. }
      pose proof (so_d _ SO) as Hd. fold d in Hd. pose proof (so_bits _ SO) as B. fold bits in B.
      assert (2 ^ 8 <= 2 ^ bits) by (apply Z.pow_le_mono_r; lia).
      change (2 ^ 8) with 256 in *. lia.
  Qed.

  Lemma bounds_snd_pos : forall v M q, 0 <= M ->
    (forall a b0, 1 <= a -> descends a b0 (Zpos q) -> 1 <= entry sp a) ->
    1 <= snd (bounds var sp v M q).
  Proof.
    intros v M q HM. induction q as [q IH | q IH |]; intros H; cbn [bounds].
    - specialize (IH (fun a b0 Ha Hb => H a b0 Ha (desc_xI _ _ _ Hb))).
      destruct (bounds var sp v M q). exact IH.
    - specialize (IH (fun a b0 Ha Hb => H a b0 Ha (desc_xO _ _ _ Hb))).
      destruct (bounds var sp v M q). cbn [snd] in *.
      pose proof (H (Z.pos q) false ltac:(lia) (desc_xO0 q)). destruct (_ =? v); lia.
    - cbn [snd]. lia.
  Qed.

  (** with no cutpoints the lower bound is at most the depth *)
  Lemma bounds_no_cutpoints : forall v q, 0 <= v -> entry ms v = 0 ->
    (forall a b0, 1 <= a -> descends a b0 (Zpos q) ->
       rule_ok ms var sp a (entry var a) (entry sp a)) ->
    fst (bounds var sp v 0 q) <= Z.log2 (Zpos q).
  Proof.
    intros v q Hv E0. induction q as [q IH | q IH |]; intros H; cbn [bounds].
    - specialize (IH (fun a b0 Ha Hb => H a b0 Ha (desc_xI _ _ _ Hb))).
      destruct (bounds var sp v 0 q) as [lo hi]. cbn [fst] in *.
      change (Z.pos q~1) with (2 * Z.pos q + 1). rewrite log2_double_1 by lia.
      destruct (Z.eqb_spec (entry var (Z.pos q)) v) as [Ev | Ev]; [| lia].
      destruct (H (Z.pos q) true ltac:(lia) (desc_xI0 q)) as [_ [[H1 _] | [_ H2]]]; [| lia].
      rewrite Ev in H1. lia.
    - specialize (IH (fun a b0 Ha Hb => H a b0 Ha (desc_xO _ _ _ Hb))).
      destruct (bounds var sp v 0 q) as [lo hi]. cbn [fst] in *.
      change (Z.pos q~0) with (2 * Z.pos q). rewrite log2_double by lia. lia.
    - cbn. lia.
  Qed.

  Lemma available_self : forall var' l v s,
    (forall i, 0 <= i -> i <> l -> entry var' i = entry var i) -> 1 <= l ->
    (available var' sp ms l v s <-> available var sp ms l v s).
  Proof.
    intros var' l v s Hv Hl. split; apply available_ext; intros a b0 Ha Hb;
    pose proof (descends_gt _ _ _ Ha Hb); rewrite Hv by lia; auto.
  Qed.

  Lemma bounds_self : forall var' l v M,
    (forall i, 0 <= i -> i <> l -> entry var' i = entry var i) -> 1 <= l ->
    bounds var' sp v M (Z.to_pos l) = bounds var sp v M (Z.to_pos l).
  Proof.
    intros var' l v M Hv Hl. apply bounds_ext. intros a b0 Ha Hb. rewrite Z2Pos.id in Hb by lia.
    pose proof (descends_gt _ _ _ Ha Hb). rewrite Hv by lia. auto.
  Qed.

  (** all variables exhausted at a node *)
  Definition exhausted (l : Z) : Prop :=
    forall w, 0 <= w < p ->
      let bb := bounds var sp w (entry ms w) (Z.to_pos l) in fst bb + 1 = snd bb.

  Lemma grow_rule : forall k l ng pc np,
    choose_leaf sp (t_aff t) (p_propose_grow b) (KSplit k 3 0) = (l, ng, pc, np) ->
    leaf_node sp l -> l < heap_size d ->
    let gm := grow_move bits var sp (t_aff t) ms (p_nonterminal b) (p_propose_grow b) k in
    g_num_growable gm = ng /\ g_node gm = l /\
    zlen (g_var_tree gm) = heap_size d /\
    0 <= g_var gm < 2 ^ minimal_unsigned_bits (p - 1) /\
    (forall i, 0 <= i -> entry (g_var_tree gm) i = if i =? l then g_var gm else entry var i) /\
    (rule_ok ms var sp l (g_var gm) (g_split gm) \/
     spilled bits ms var sp l (g_var gm) (g_split gm)) /\
    (g_var gm < p \/ exhausted l).
  Proof.
    intros k l ng pc np E L Hl gm. unfold gm, grow_move. rewrite E.
    cbn [g_num_growable g_node g_var_tree g_var g_split].
    pose proof (ti_split _ _ TI) as Hs. pose proof (ti_var _ _ TI) as Hv. fold sp d in Hs. fold var d in Hv.
    pose proof (so_d _ SO) as Hd. fold d in Hd.
    pose proof (so_p _ SO) as Hp. fold p in Hp.
    assert (Hl1 : 1 <= l) by (destruct L as [R _]; now apply reachable_pos in R).
    split; auto. split; auto. split; [now rewrite zlen_scatter_set |].
    change (zlen ms) with p.
    set (v := choose_variable bits var sp ms l (KSplit k 3 1)).
    assert (Hc := choose_variable_cases bits d var sp ms l Hd Hv ltac:(lia) Hp (var_dtype_all l)
                    (KSplit k 3 1)).
    cbv zeta in Hc. fold v in Hc. change (zlen ms) with p in Hc.
    assert (Hvr : 0 <= v < 2 ^ minimal_unsigned_bits (p - 1)).
    { pose proof (minimal_unsigned_bits_ge8 (p - 1)).
      assert (2 ^ 8 <= 2 ^ minimal_unsigned_bits (p - 1)) by (apply Z.pow_le_mono_r; lia).
      change (2 ^ 8) with 256 in *.
      pose proof (minimal_unsigned_bits_fits (p - 1) ltac:(lia)).
      destruct Hc as [[Hq _] | [Hq _]]; lia. }
    split; auto.
    rewrite (wrap_small _ v) by auto.
    set (var' := scatter_set var l v).
    assert (Hv' : forall i, 0 <= i -> entry var' i = if i =? l then v else entry var i).
    { intros i Hi. unfold var'. change (entry (scatter_set var l v) i) with (zget 0 (scatter_set var l v) i).
      rewrite zget_scatter_set by lia. rewrite (Z.eqb_sym l i). reflexivity. }
    assert (Hvl : entry var' l = v) by (rewrite Hv', Z.eqb_refl; lia).
    assert (Hvo : forall i, 0 <= i -> i <> l -> entry var' i = entry var i).
    { intros i Hi Ni. rewrite Hv' by auto. destruct (Z.eqb_spec i l); auto; lia. }
    split; auto. split.
    2: { destruct Hc as [[H1 _] | [_ H2]]; [left; lia | right].
         intros w Hw. specialize (H2 w Hw).
         apply (fully_used_sound bits d) in H2; auto; try lia; [| apply var_dtype_all].
         destruct H2 as [H2 _]. cbv zeta in *.
         destruct (spill_bounds bits var sp w (entry ms w) (Z.to_pos l)) as [SB _];
           [unfold bits; pose proof (so_bits _ SO); lia | |].
         { rewrite Z2Pos.id by lia. intros a Ha Hb _. eapply above_bound; eauto. }
         pose proof (so_ms _ SO w) as Mw. fold ms bits in Mw.
         assert (SP : 1 <= snd (bounds var sp w (entry ms w) (Z.to_pos l))).
         { apply bounds_snd_pos; [lia |]. rewrite Z2Pos.id by lia. intros a b0 Ha Hb.
           eapply above_bound; eauto. }
         pose proof (bounds_0 var sp w (entry ms w) (Z.to_pos l)) as B0.
         destruct (Z.lt_ge_cases (fst (bounds var sp w (entry ms w) (Z.to_pos l)) + 1) (2 ^ bits)) as [W | W].
         - rewrite wrap_small in H2 by lia. exact H2.
         - exfalso. replace (fst (bounds var sp w (entry ms w) (Z.to_pos l)) + 1) with (2 ^ bits) in H2 by lia.
           unfold wrap in H2. rewrite Z.mod_same in H2 by lia. clear - H2 SP. lia. }
    assert (Hlen' : zlen var' = heap_size d) by (unfold var'; now rewrite zlen_scatter_set).
    destruct (Z.eq_dec (entry ms v) 0) as [E0 | E0].
    - left. split; [lia |]. right. split; auto.
      unfold choose_split. rewrite (gather_in _ _ 0) by lia.
      change (zget 0 var' l) with (entry var' l). rewrite Hvl.
      rewrite (split_range_bounds bits d) by (auto; lia).
      rewrite bounds_self by auto. rewrite E0.
      pose proof (bounds_0 var sp v 0 (Z.to_pos l)) as B0.
      assert (B1 : fst (bounds var sp v 0 (Z.to_pos l)) <= Z.log2 l).
      { rewrite <- (Z2Pos.id l) at 2 by lia. apply bounds_no_cutpoints; auto; [lia |].
        intros a b0 Ha Hb. rewrite Z2Pos.id in Hb by lia. eapply above_ok; eauto. }
      assert (LL : Z.log2 l < d - 1) by (apply Z.log2_lt_pow2; [lia |]; unfold heap_size in Hl; lia).
      assert (B8 : 2 ^ 8 <= 2 ^ bits).
      { apply Z.pow_le_mono_r; [lia |]. unfold bits. pose proof (so_bits _ SO). lia. }
      change (2 ^ 8) with 256 in B8. rewrite wrap_small by lia.
      unfold randint. destruct (Z.leb_spec (snd (bounds var sp v 0 (Z.to_pos l)))
        (fst (bounds var sp v 0 (Z.to_pos l)) + 1)); lia.
    - assert (Hm1 : 1 <= entry ms v < 2 ^ bits) by (assert (Hq := so_ms _ SO v); change (max_split b) with ms in Hq; fold bits in Hq; lia).
      assert (Hvp : v < p) by exact (entry_pos_lt ms v ltac:(lia)).
      destruct Hc as [[_ NF] | [H1 _]]; [| lia].
      destruct (spill_bounds bits var sp v (entry ms v) (Z.to_pos l)) as [SB1 SB2];
        [unfold bits; pose proof (so_bits _ SO); lia | |].
      { rewrite Z2Pos.id by lia. intros a Ha Hb _. eapply above_bound; eauto. }
      rewrite Z2Pos.id in SB2 by lia.
      destruct (Z.eq_dec (fst (bounds var sp v (entry ms v) (Z.to_pos l))) (2 ^ bits - 1)) as [Esp | Nsp].
      { right. split; [unfold p, bp in Hvp; fold ms in Hvp; lia |]. split; [| now apply SB2].
        unfold choose_split. rewrite (gather_in _ _ 0) by lia.
        change (zget 0 var' l) with (entry var' l). rewrite Hvl.
        rewrite (split_range_bounds bits d) by (auto; lia). rewrite bounds_self by auto.
        rewrite Esp. replace (2 ^ bits - 1 + 1) with (2 ^ bits) by lia. unfold wrap.
        rewrite Z.mod_same by lia.
        pose proof (bounds_0 var sp v (entry ms v) (Z.to_pos l)) as B0.
        set (hi := snd (bounds var sp v (entry ms v) (Z.to_pos l))) in *. clearbody hi.
        pose proof (randint_bounds (g := g) (KSplit k 3 2) 0 hi) as RB.
        unfold randint in *. destruct (Z.leb_spec hi 0); [lia |]. specialize (RB ltac:(lia)). lia. }
      left. split; [lia |]. left. split; [lia |].
      rewrite <- (available_self var') by auto.
      replace v with (entry var' l) at 1. apply (choose_split_available bits d); auto; try lia; [rewrite Hvl; lia |].
      rewrite Hvl.
      (* the range is not empty *)
      set (bb := bounds var sp v (entry ms v) (Z.to_pos l)).
      assert (O : fst bb + 1 <= snd bb).
      { apply bounds_ordered; [lia |]. intros a b0 Ha Hb Ev. rewrite Z2Pos.id in Hb by lia.
        destruct (above_ok l L a b0 Ha Hb) as [_ [_ [[_ A] | [A _]]]]; [exact A |].
        rewrite Ev in A. lia. }
      assert (Hlr : 1 <= l < heap_size d) by lia.
      assert (Hvq : 0 <= v < p) by lia.
      assert (NE : fst bb + 1 < snd bb).
      { destruct (Z.eq_dec (fst bb + 1) (snd bb)) as [Eq | Nq]; [| lia].
        assert (Eb : bb = (0, entry ms v + 1)).
        { apply bounds_not_above. intros a b0 Ha Hb Ev. rewrite Z2Pos.id in Hb by lia.
          apply NF. rewrite <- Ev.
          apply (fully_used_complete bits d var sp ms l Hd Hv Hs Hlr Hp (var_dtype_all l) a b0 Ha Hb).
          rewrite Ev. cbv zeta. fold bb. fold bb in Nsp, SB1.
          pose proof (bounds_0 var sp v (entry ms v) (Z.to_pos l)) as B0. fold bb in B0.
          rewrite wrap_small; lia. }
        rewrite Eb. cbn [fst snd]. lia. }
      exists (fst bb + 1). apply available_self; auto.
      pose proof (bounds_available var sp ms (Z.to_pos l) v (fst bb + 1)) as B.
      rewrite Z2Pos.id in B by lia. apply B. fold bb. lia.
  Qed.

  Lemma grow_oob : forall k l ng pc np,
    choose_leaf sp (t_aff t) (p_propose_grow b) (KSplit k 3 0) = (l, ng, pc, np) ->
    heap_size d <= l ->
    let gm := grow_move bits var sp (t_aff t) ms (p_nonterminal b) (p_propose_grow b) k in
    g_num_growable gm = ng /\ g_node gm = l /\ g_var_tree gm = var.
  Proof.
    intros k l ng pc np E Hl gm. unfold gm, grow_move. rewrite E.
    cbn [g_num_growable g_node g_var_tree]. pose proof (ti_var _ _ TI) as Hv. fold var d in Hv.
    split; auto. split; auto. apply scatter_set_over. lia.
  Qed.

  (** ** prune proposals *)

  Definition prunable (n : Z) : Prop :=
    decision sp n /\ ~ decision sp (2 * n) /\ ~ decision sp (2 * n + 1).

  Lemma prune_cases : forall k,
    let pm := prune_move sp (t_aff t) (p_nonterminal b) (p_propose_grow b) k in
    (pr_allowed pm = true /\ decision sp 1 /\ prunable (pr_node pm)) \/
    (pr_allowed pm = false /\ (forall i, ~ decision sp i) /\ pr_node pm = 2 * heap_size d).
  Proof.
    intros k pm. unfold pm, prune_move, choose_leaf_parent.
    cbn [pr_allowed pr_node].
    pose proof (ti_split _ _ TI) as Hs. fold sp d in Hs.
    pose proof (so_d _ SO) as Hd. fold d in Hd. pose proof heap_ge2 as Hh.
    rewrite (gather_in _ _ 0) by lia. change (zget 0 sp 1) with (entry sp 1).
    assert (Hm : forall i, 0 <= i < zlen (is_leaves_parent sp) ->
      (zget false (is_leaves_parent sp) i = true <-> prunable i)).
    { intros i Hi. rewrite zlen_is_leaves_parent in Hi. unfold prunable.
      apply (is_leaves_parent_spec d); auto; lia. }
    destruct (Z.eqb_spec (entry sp 1) 0) as [E1 | E1]; cbn [negb].
    - right. split; auto.
      assert (N : forall i, ~ decision sp i).
      { intros i D. pose proof (ti_stray _ _ TI i D) as R.
        destruct (Z.eq_dec i 1) as [-> | Ni]; [now destruct D |].
        assert (Hi : 2 <= i) by (apply reachable_pos in R; lia).
        assert (Hx : exists b0, descends 1 b0 i).
        { apply descends_pow; try lia. exists (Z.log2 i).
          pose proof (Z.log2_spec i ltac:(lia)) as LS.
          assert (1 <= Z.log2 i) by (apply Z.log2_le_pow2; [lia | change (2 ^ 1) with 2; lia]).
          split; auto. rewrite Z.pow_succ_r in LS by lia.
          apply Z.div_unique with (r := i - 2 ^ Z.log2 i); lia. }
        destruct Hx as [b0 Hb]. apply (reachable_above sp i 1 b0) in R; auto; [| lia].
        now destruct R. }
      split; auto.
      destruct (Z.eqb_spec (count_nonzero (is_leaves_parent sp)) 0) as [E0 | E0]; cbn [negb];
        [lia |].
      apply count_pos_zget in E0. destruct E0 as (i & Hi & E). apply Hm in E; auto.
      destruct E as [D _]. now apply N in D.
    - left. assert (D1 : decision sp 1) by (split; auto; lia). split; auto. split; auto.
      destruct (leaves_parent_exists sp D1) as (i & R & D & N1 & N2).
      pose proof (decision_lt _ _ D). pose proof (reachable_pos _ _ R).
      assert (Hc : count_nonzero (is_leaves_parent sp) <> 0).
      { apply count_pos_zget. exists i. rewrite zlen_is_leaves_parent. split; [lia |].
        apply Hm; [rewrite zlen_is_leaves_parent; lia |]. repeat split; auto. apply D. }
      rewrite (proj2 (Z.eqb_neq _ _)) by auto. cbn [negb].
      pose proof (count_nonzero_nonneg (is_leaves_parent sp)).
      destruct (randint_masked_spec k (is_leaves_parent sp) ltac:(lia)) as (u & _ & _ & H').
      destruct (proj1 (H' _) eq_refl) as [T _]. apply zget_bool_true in T. destruct T as [T1 T2].
      now apply Hm in T2.
  Qed.

  (** ** the move *)

  (** a variable array that differs from the tree's only at non-decision nodes *)
  Definition var_ext (var' : list Z) : Prop :=
    zlen var' = heap_size d /\
    (forall i, 0 <= entry var' i < 2 ^ minimal_unsigned_bits (p - 1)) /\
    entry var' 0 = 0 /\
    (forall i, decision sp i -> entry var' i = entry var i).

  Inductive move_ok (m : move) : Prop :=
  | mk_grow :
      m_grow m = true -> m_allowed m = true ->
      can_grow b t (m_node m) -> zget f0 (p_propose_grow b) (m_node m) <> f0 ->
      (forall i, 0 <= i -> entry (m_var_tree m) i =
         if i =? m_node m then m_grow_var m else entry var i) ->
      (rule_ok ms var sp (m_node m) (m_grow_var m) (m_grow_split m) \/
       spilled bits ms var sp (m_node m) (m_grow_var m) (m_grow_split m)) ->
      (m_grow_var m < p \/ exhausted (m_node m)) -> move_ok m
  | mk_prune :
      m_grow m = false -> m_allowed m = true -> prunable (m_node m) -> decision sp 1 ->
      move_ok m
  | mk_noop :
      heap_size d <= m_node m -> ~ In (m_node m) (t_idx t) ->
      (m_grow m = false -> m_allowed m = false) ->
      (m_grow m = true -> m_node m = heap_size d /\
         forall i, can_grow b t i -> zget f0 (p_propose_grow b) i = f0) ->
      m_var_tree m = var -> move_ok m.

  Lemma idx_range : forall i, In i (t_idx t) -> leaf_node sp i /\ 1 <= i < 2 * heap_size d.
  Proof.
    intros i Hi. rewrite (ti_idx _ _ TI) in Hi. apply in_map_iff in Hi.
    destruct Hi as (x & <- & _). pose proof (so_d _ SO) as Hd. fold d in Hd.
    pose proof (ti_var _ _ TI) as Hv. pose proof (ti_split _ _ TI) as Hs. fold sp d in Hs. fold var d in Hv.
    split.
    - apply (traverse_leaf d); auto; lia.
    - pose proof (traverse_bounds d x var sp ltac:(lia) Hv Hs). rewrite heap_2 by lia. auto.
  Qed.

  Lemma move_cases : forall k u logu,
    flt u f0 = false -> flt u f1 = true ->
    let '(gm, pm) := sample_moves_tree b t k in
    let m := choose_move gm pm u logu in
    move_ok m /\ var_ext (m_var_tree m) /\
    m_left m = 2 * m_node m /\ m_right m = 2 * m_node m + 1 /\
    m_num_growable m = count_nonzero (growable_leaves sp (t_aff t)) /\
    (m_grow m = true -> exists i, can_grow b t i) /\
    ((exists i, can_grow b t i) -> ~ decision sp 1 -> m_grow m = true) /\
    (m_allowed m = false <-> (forall i, ~ can_grow b t i) /\ ~ decision sp 1).
  Proof.
    intros k u logu Hu0 Hu1. unfold sample_moves_tree.
    fold var sp ms bits.
    set (gm := grow_move bits var sp (t_aff t) ms (p_nonterminal b) (p_propose_grow b) (KSplit k 2 0)).
    set (pm := prune_move sp (t_aff t) (p_nonterminal b) (p_propose_grow b) (KSplit k 2 1)).
    cbv zeta beta iota.
    destruct (choose_leaf sp (t_aff t) (p_propose_grow b) (KSplit (KSplit k 2 0) 3 0))
      as [[[l ng] pc] np] eqn:Ecl.
    destruct (choose_leaf_cases _ _ _ _ _ Ecl) as [Eng Hcl].
    pose proof (prune_cases (KSplit k 2 1)) as Hpc. cbv zeta in Hpc. fold pm in Hpc.
    pose proof heap_ge2 as Hh.
    assert (Hve0 : var_ext var).
    { repeat split; try apply (ti_vrange _ _ TI); [apply (ti_var _ _ TI) | apply (ti_var0 _ _ TI)]. }
    (* the grow proposal *)
    assert (Hgm : g_num_growable gm = ng /\ g_node gm = l /\ var_ext (g_var_tree gm)).
    { assert (Hoob : heap_size d <= l -> g_num_growable gm = ng /\ g_node gm = l /\
        var_ext (g_var_tree gm)).
      { intros Hl. destruct (grow_oob _ _ _ _ _ Ecl Hl) as (E1 & E2 & E3). fold gm in E1, E2, E3.
        rewrite E3. auto. }
      destruct Hcl as [(_ & G & _) | [(_ & El & _) | (_ & El & _)]]; [| apply Hoob; lia ..].
      pose proof (can_grow_bounds l G) as Hl.
      destruct G as (L & _ & _).
      destruct (grow_rule _ _ _ _ _ Ecl L ltac:(lia)) as (E1 & E2 & E3 & E4 & E5 & _).
      fold gm in E1, E2, E3, E4, E5. split; auto. split; auto. repeat split; auto.
      - destruct (Z.le_gt_cases 0 i).
        + rewrite E5 by auto. destruct (i =? l); [lia | apply (ti_vrange _ _ TI)].
        + assert (Z.to_nat i = Z.to_nat 0) as Ei by lia. unfold entry. rewrite Ei.
          change (0 <= entry (g_var_tree gm) 0). rewrite E5 by lia.
          destruct (0 =? l); [lia | apply (ti_vrange _ _ TI)].
      - destruct (Z.le_gt_cases 0 i).
        + rewrite E5 by auto. destruct (i =? l); [lia | apply (ti_vrange _ _ TI)].
        + assert (Z.to_nat i = Z.to_nat 0) as Ei by lia. unfold entry. rewrite Ei.
          change (entry (g_var_tree gm) 0 < 2 ^ minimal_unsigned_bits (p - 1)). rewrite E5 by lia.
          destruct (0 =? l); [lia | apply (ti_vrange _ _ TI)].
      - rewrite E5 by lia. destruct (Z.eqb_spec 0 l); [lia | apply (ti_var0 _ _ TI)].
      - intros i D. pose proof D as D'. destruct D' as [D1 _]. rewrite E5 by lia.
        destruct (Z.eqb_spec i l) as [-> | _]; auto. now apply L in D. }
    destruct Hgm as (Hg1 & Hg2 & Hg3).
    unfold choose_move. cbn [m_grow m_allowed m_node m_var_tree m_left m_right m_num_growable].
    rewrite Hg1, Hg2, shiftl_1.
    (* which kind *)
    set (pg := if negb (ng =? 0) && pr_allowed pm then fhalf else if negb (ng =? 0) then f1 else f0).
    assert (Hgrow : flt u pg = true -> ng <> 0).
    { unfold pg. destruct (Z.eqb_spec ng 0); cbn [negb andb]; auto. congruence. }
    assert (Hngc : ng <> 0 <-> exists i, can_grow b t i).
    { rewrite Eng. rewrite count_pos_zget. rewrite zlen_growable. split.
      - intros (i & Hi & E). exists i. now apply growable_spec.
      - intros (i & G). pose proof (can_grow_bounds i G). exists i. split; [lia |].
        apply growable_spec; auto; lia. }
    split; [| split; [auto | split; [auto | split; [auto | split; [auto |]]]]].
    - (* classification *)
      destruct (flt u pg) eqn:Eg.
      + specialize (Hgrow eq_refl).
        destruct Hcl as [(_ & G & Gp) | [(_ & El & Gp) | (E0 & _)]]; [| | lia].
        * pose proof (can_grow_bounds l G) as Hl. pose proof G as (L & _ & _).
          destruct (grow_rule _ _ _ _ _ Ecl L ltac:(lia)) as (_ & _ & _ & _ & E5 & E6 & E7).
          fold gm in E5, E6, E7. apply mk_grow; auto.
        * apply mk_noop; cbn [m_node m_grow m_allowed m_var_tree]; try lia; try congruence.
          -- intros Hin. apply idx_range in Hin. destruct Hin as [Hin _].
             rewrite El in Hin.
             assert (Hex : exists i, can_grow b t i) by tauto. destruct Hex as (i & G).
             pose proof (can_grow_bounds i G).
             exact (bottom_left_leaf Hin i ltac:(lia) (Gp i G)).
          -- intros _. auto.
          -- assert (Hl : heap_size d <= l) by lia.
             destruct (grow_oob _ _ _ _ _ Ecl Hl) as (_ & _ & E3). exact E3.
      + destruct Hpc as [(P1 & P2 & P3) | (P1 & P2 & P3)].
        * apply mk_prune; cbn [m_grow m_allowed m_node]; auto.
        * (* no growable leaf either *)
          assert (E0 : ng = 0).
          { destruct (Z.eq_dec ng 0) as [E0 | N0]; auto. exfalso.
            unfold pg in Eg. rewrite (proj2 (Z.eqb_neq _ _) N0), P1 in Eg. cbn in Eg. congruence. }
          destruct Hcl as [(N0 & _) | [(N0 & _) | (_ & El & _)]]; [lia | lia |].
          apply mk_noop; cbn [m_node m_grow m_allowed m_var_tree]; try lia; try congruence.
          -- intros Hin. apply idx_range in Hin. lia.
          -- intros _. now rewrite P1.
          -- assert (Hl : heap_size d <= l) by lia.
             destruct (grow_oob _ _ _ _ _ Ecl Hl) as (_ & _ & E3). exact E3.
    - split; [| split].
      + intros Eg. apply Hngc. auto.
      + intros G N. apply Hngc in G. unfold pg.
        destruct Hpc as [(_ & P2 & _) | (P1 & _)]; [contradiction |].
        rewrite P1, (proj2 (Z.eqb_neq _ _) G). cbn. auto.
      + rewrite orb_false_iff. split.
        * intros [E1 E2]. destruct Hpc as [(P1 & _) | (P1 & P2 & _)]; [congruence |].
          split; [| auto]. intros i G. assert (N0 : ng <> 0) by (apply Hngc; eauto).
          unfold pg in E1. rewrite (proj2 (Z.eqb_neq _ _) N0), P1 in E1. cbn in E1. congruence.
        * intros [H1 H2]. destruct Hpc as [(_ & P2 & _) | (P1 & _)]; [contradiction |].
          split; auto. unfold pg. assert (E0 : ng = 0).
          { destruct (Z.eq_dec ng 0) as [E0 | N0]; auto. apply Hngc in N0. destruct N0 as (i & G).
            now apply H1 in G. }
          rewrite E0. cbn. auto.
  Qed.
End Inv.
