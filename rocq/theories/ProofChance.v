(** The draws that give each proposal. *)
From Coq Require Import ZArith List Bool Lia Reals Lra Permutation.
From Verif Require Import Base LemBase ModelJaxext ModelGrove ModelStep SpecTree
  SpecSampling SpecRange SpecForest SpecRun SpecPosterior SpecProposal SpecMH SpecChance Laws ProofTree
  ProofSampling ProofCategorical ProofRange ProofAggregate ProofRoute ProofMoves ProofStep ProofRun ProofForest
  ProofDraw ProofExact ProofNormal ProofGauss ProofProposal ProofTransition ProofRatio.
Import ListNotations.
Open Scope Z_scope.
Ltac Zify.zify_post_hook ::= Z.div_mod_to_equations.

(** ** Rules *)

Lemma In_cuts_pos : forall ms var sp v c q,
  In c (cuts ms (above_pos var sp q) v) <-> available var sp ms (Zpos q) v c.
Proof.
  intros ms var sp v c q. unfold cuts. rewrite filter_In.
  assert (R : In c (map Z.of_nat (seq 1 (Z.to_nat (entry ms v)))) <-> 1 <= c <= entry ms v).
  { rewrite in_map_iff. split.
    - intros (x & <- & H). apply in_seq in H. lia.
    - intros H. exists (Z.to_nat c). split; [lia |]. apply in_seq. lia. }
  rewrite R. unfold available. apply and_iff_compat_l. rewrite forallb_forall.
  induction q as [q IH | q IH |]; cbn [above_pos].
  - split.
    + intros H a b Ha Hd. change (Zpos q~1) with (2 * Zpos q + 1) in Hd.
      apply descends_right in Hd; try lia. destruct Hd as [[-> ->] | Hd].
      * intros E. specialize (H _ (or_introl eq_refl)). cbn beta iota in H.
        rewrite E, Z.eqb_refl in H. now apply Z.ltb_lt.
      * apply IH; auto. intros x Hx. apply H. now right.
    + intros H x [<- | Hx].
      * cbn beta iota. destruct (Z.eqb_spec (entry var (Zpos q)) v); auto. apply Z.ltb_lt.
        apply (H (Zpos q) true); auto; [lia |]. apply desc_xI0.
      * revert x Hx. apply IH. intros a b Ha Hd. apply H; auto. now apply desc_xI.
  - split.
    + intros H a b Ha Hd. change (Zpos q~0) with (2 * Zpos q) in Hd.
      apply descends_left in Hd; try lia. destruct Hd as [[-> ->] | Hd].
      * intros E. specialize (H _ (or_introl eq_refl)). cbn beta iota in H.
        rewrite E, Z.eqb_refl in H. now apply Z.ltb_lt.
      * apply IH; auto. intros x Hx. apply H. now right.
    + intros H x [<- | Hx].
      * cbn beta iota. destruct (Z.eqb_spec (entry var (Zpos q)) v); auto. apply Z.ltb_lt.
        apply (H (Zpos q) false); auto; [lia |]. apply desc_xO0.
      * revert x Hx. apply IH. intros a b Ha Hd. apply H; auto. now apply desc_xO.
  - split; [| intros _ x []]. intros _ a b Ha Hd. now apply descends_root in Hd.
Qed.

Lemma In_cuts : forall ms var sp v c i, 1 <= i ->
  (In c (cuts ms (above var sp i) v) <-> available var sp ms i v c).
Proof.
  intros ms var sp v c i Hi. unfold above. rewrite In_cuts_pos, Z2Pos.id by lia. reflexivity.
Qed.

Lemma NoDup_cuts : forall ms ab v, NoDup (cuts ms ab v).
Proof.
  intros. unfold cuts. apply NoDup_filter. apply FinFun.Injective_map_NoDup; [| apply seq_NoDup].
  intros x y H. lia.
Qed.

Lemma interval_length : forall l lo n, 0 <= n -> NoDup l -> (forall c, In c l <-> lo <= c < lo + n) ->
  Z.of_nat (length l) = n.
Proof.
  intros l lo n Hn ND H.
  assert (P : Permutation l (map (fun j => lo + j) (arange n))).
  { apply NoDup_Permutation; auto.
    - apply FinFun.Injective_map_NoDup; [intros x y E; lia | apply NoDup_arange].
    - intros c. rewrite H, in_map_iff. split.
      + intros Hc. exists (c - lo). split; [lia |]. apply In_arange; lia.
      + intros (j & <- & Hj). apply In_arange in Hj; lia. }
  rewrite (Permutation_length P), map_length. unfold arange. rewrite map_length, seq_length. lia.
Qed.

Lemma filter_seq_allowed : forall E (f : Z -> bool) n,
  (forall v, 0 <= v < Z.of_nat n -> (f v = true <-> ~ In v E)) ->
  Z.of_nat (length (filter f (map Z.of_nat (seq 0 n)))) = allowed_before E (Z.of_nat n).
Proof.
  intros E f n H. unfold allowed_before. rewrite Nat2Z.id. f_equal.
  assert (G : forall l, (forall x, In x l -> (x < n)%nat) ->
    length (filter f (map Z.of_nat l)) =
    length (filter (fun b => if in_dec Z.eq_dec (Z.of_nat b) E then false else true) l)).
  { induction l as [| x l IH]; intros Hl; [reflexivity |]. cbn [map filter].
    specialize (H (Z.of_nat x)). specialize (Hl x (or_introl eq_refl)) as Hx.
    assert (IH' : length (filter f (map Z.of_nat l)) =
      length (filter (fun b => if in_dec Z.eq_dec (Z.of_nat b) E then false else true) l))
      by (apply IH; intros; apply Hl; now right).
    destruct (in_dec Z.eq_dec (Z.of_nat x) E) as [Y | Y].
    - destruct (f (Z.of_nat x)); auto. exfalso. apply H; auto; lia.
    - rewrite (proj2 (H ltac:(lia)) Y). cbn [length]. now rewrite IH'. }
  apply G. intros x Hx. apply in_seq in Hx. lia.
Qed.

Lemma spill_above : forall bits var sp v q,
  (existsb (fun r => match r with (v', s, on_right) =>
     (v' =? v) && ((on_right : bool) && (s =? 2 ^ bits - 1)) end) (above_pos var sp q) = true <->
   spill bits var sp (Zpos q) v).
Proof.
  intros bits var sp v. induction q as [q IH | q IH |]; cbn [above_pos existsb].
  - rewrite orb_true_iff, IH. rewrite !andb_true_iff, !Z.eqb_eq. split.
    + intros [(E1 & _ & E2) | (a & Ha & Hb & H)].
      * exists (Zpos q). split; [lia |]. split; [apply desc_xI0 | auto].
      * exists a. split; auto. split; [now apply desc_xI | auto].
    + intros (a & Ha & Hb & H1 & H2). change (Zpos q~1) with (2 * Zpos q + 1) in Hb.
      apply descends_right in Hb; [| lia..]. destruct Hb as [[-> _] | Hb]; [left; auto |].
      right. exists a. auto.
  - rewrite orb_true_iff, IH. rewrite !andb_true_iff. split.
    + intros [(_ & E & _) | (a & Ha & Hb & H)]; [discriminate |].
      exists a. split; auto. split; [now apply desc_xO | auto].
    + intros (a & Ha & Hb & H1 & H2). change (Zpos q~0) with (2 * Zpos q) in Hb.
      apply descends_left in Hb; [| lia..]. destruct Hb as [[-> E] | Hb]; [discriminate |].
      right. exists a. auto.
  - split; [discriminate |]. intros (a & Ha & Hb & _). now apply descends_root in Hb.
Qed.

Section Rules.
  Context {zo : zoob}.
  Variables (bits d : Z) (var sp ms : list Z) (i : Z).
  Hypothesis Hd : 2 <= d <= 64.
  Hypothesis Hv : zlen var = heap_size d.
  Hypothesis Hs : zlen sp = heap_size d.
  Hypothesis Hi : 1 <= i < heap_size d.
  Hypothesis Hp : 1 <= zlen ms < 2 ^ 64.
  Hypothesis Hbits : 1 <= bits.
  Hypothesis Hms : forall v, 0 <= entry ms v < 2 ^ bits.
  Hypothesis HF : forall k, In k [8; 16; 32] -> zlen ms = 2 ^ k -> entry ms 0 <> 0.
  Hypothesis VR : forall a b, 1 <= a -> descends a b i -> 0 <= entry var a /\ valid_rule var sp ms a.
  Let ab := above var sp i.

  Let HD : var_dtype (zlen ms) var i := valid_var_dtype var sp ms i Hp VR.

  Lemma candidate_spec : forall v, 0 <= v < zlen ms ->
    ((entry ms v =? 0) || negb (Z.of_nat (length (cuts ms ab v)) =? 0) ||
       existsb (fun r => match r with (v', s, on_right) =>
         (v' =? v) && ((on_right : bool) && (s =? 2 ^ bits - 1)) end) ab = true <->
     ~ In v (fully_used_variables bits var sp ms i)).
  Proof.
    intros v Hvr.
    assert (VR' : forall a b, 1 <= a -> descends a b i -> valid_rule var sp ms a)
      by (intros; eapply VR; eauto).
    destruct (Z.eq_dec (entry ms v) 0) as [E0 | E0].
    - rewrite E0. cbn [Z.eqb orb]. split; auto. intros _ H.
      apply (fully_used_sound bits d var sp ms i Hd Hv Hs Hi Hp HD v Hvr) in H.
      destruct H as [_ [Ef | (a & b & Ha & Hb & Ev)]].
      + destruct (filler_value ms Hp) as [F0 | [F0 F1]]; [lia |].
        rewrite F0 in Ef. subst v. exfalso.
        assert (exists k, In k [8; 16; 32] /\ zlen ms = 2 ^ k) as (k & K1 & K2).
        { destruct F1 as [F1 | [F1 | F1]]; [exists 8 | exists 16 | exists 32]; split; auto; cbn; auto. }
        exact (HF k K1 K2 E0).
      + destruct (VR a b Ha Hb) as [_ [H _]]. rewrite Ev in H. lia.
    - specialize (Hms v) as Hmv.
      rewrite (fully_used_exact bits d var sp ms i v Hd Hv Hs Hi Hp Hbits HD VR' Hvr ltac:(lia)).
      destruct (Z.eqb_spec (entry ms v) 0); [lia |]. cbn [orb].
      assert (SP : existsb (fun r => match r with (v', s, on_right) =>
         (v' =? v) && ((on_right : bool) && (s =? 2 ^ bits - 1)) end) ab = true <-> spill bits var sp i v).
      { unfold ab, above. rewrite spill_above, Z2Pos.id by lia. reflexivity. }
      assert (CU : negb (Z.of_nat (length (cuts ms ab v)) =? 0) = true <-> exists c, available var sp ms i v c).
      { rewrite negb_true_iff, Z.eqb_neq. split.
        - intros H. destruct (cuts ms ab v) as [| c l] eqn:Ec; [cbn in H; lia |].
          exists c. apply In_cuts; [lia |]. fold ab. rewrite Ec. now left.
        - intros [c Hc] H. apply In_cuts in Hc; [| lia]. fold ab in Hc.
          destruct (cuts ms ab v); [destruct Hc | cbn [length] in H; lia]. }
      rewrite orb_true_iff, SP, CU.
      destruct (spill_dec bits var sp v (Z.to_pos i)) as [Y | N]; rewrite Z2Pos.id in * by lia; [tauto |].
      split; [tauto |]. intros H. left.
      destruct (cuts ms ab v) as [| c l] eqn:Ec.
      + exfalso. apply H. split; auto. intros X. apply CU in X. discriminate.
      + exists c. apply In_cuts; [lia |]. fold ab. rewrite Ec. now left.
  Qed.

  Lemma In_candidates : forall v, In v (candidates bits ms ab) <->
    allowed (zlen ms) (fully_used_variables bits var sp ms i) v.
  Proof.
    intros v. unfold candidates, allowed. rewrite filter_In.
    assert (R : In v (map Z.of_nat (seq 0 (length ms))) <-> 0 <= v < zlen ms).
    { unfold zlen. rewrite in_map_iff. split.
      - intros (x & <- & H). apply in_seq in H. lia.
      - intros H. exists (Z.to_nat v). split; [lia |]. apply in_seq. lia. }
    rewrite R. split; intros [H1 H2]; (split; [exact H1 |]); now apply candidate_spec.
  Qed.

  Lemma count_candidates : Z.of_nat (length (candidates bits ms ab)) =
    allowed_before (fully_used_variables bits var sp ms i) (zlen ms).
  Proof. unfold candidates. apply filter_seq_allowed. apply candidate_spec. Qed.

  (** the draws that give variable [v] *)
  Lemma choose_variable_draw : forall v, In v (candidates bits ms ab) ->
    let n := Z.of_nat (length (candidates bits ms ab)) in
    exists j, 0 <= j < n /\ forall (g : rng rops) k,
      choose_variable (g := g) bits var sp ms i k = v <-> r_bits (rng := g) k mod n = j.
  Proof.
    intros v Hvc n. pose proof Hvc as HA. apply In_candidates in HA.
    assert (NP : 0 < n) by (unfold n; destruct (candidates bits ms ab); [destruct Hvc | cbn [length]; lia]).
    set (E := fully_used_variables bits var sp ms i) in *.
    assert (EP : forall e, In e E -> 0 <= e) by (apply (fully_used_nonneg bits d var sp ms i Hd Hv Hi Hp HD)).
    unfold n in *. rewrite count_candidates in *. fold E in NP |- *.
    exists (allowed_before E v).
    assert (SPEC := fun (g : rng rops) k =>
      randint_exclude_spec (g := g) k (zlen ms) E ltac:(lia) EP NP).
    cbv zeta in SPEC. split.
    - destruct HA as [HA1 HA2]. unfold allowed_before. split; [lia |].
      assert (SS : seq 0 (Z.to_nat (zlen ms)) = seq 0 (Z.to_nat v) ++ Z.to_nat v :: seq (S (Z.to_nat v)) (Z.to_nat (zlen ms) - S (Z.to_nat v))).
      { replace (Z.to_nat (zlen ms)) with (Z.to_nat v + S (Z.to_nat (zlen ms) - S (Z.to_nat v)))%nat at 1 by lia.
        rewrite List.seq_app. reflexivity. }
      rewrite SS, filter_app, app_length. cbn [filter]. rewrite Z2Nat.id by lia.
      destruct (in_dec Z.eq_dec v E); [contradiction |]. cbn [length]. lia.
    - intros g k. destruct (SPEC g k) as (u & Hu & Eu & H). unfold choose_variable. fold E.
      rewrite H, <- Eu. split; [intros [_ ->]; reflexivity | intros ->; auto].
  Qed.
End Rules.

Section Cut.
  Context {zo : zoob}.
  Variables (bits d : Z) (var sp ms : list Z) (i : Z).
  Hypothesis Hd : 2 <= d <= 64.
  Hypothesis Hv : zlen var = heap_size d.
  Hypothesis Hs : zlen sp = heap_size d.
  Hypothesis Hi : 1 <= i < heap_size d.
  Hypothesis Hvi : 0 <= entry var i.
  Let ab := above var sp i.
  Let v := entry var i.
  Hypothesis Hbits : 1 <= bits.
  Hypothesis Hms : entry ms v < 2 ^ bits.

  (** the draws that give cutpoint [c] *)
  Lemma choose_split_draw : forall c, In c (cuts ms ab v) ->
    let n := Z.of_nat (length (cuts ms ab v)) in
    exists j, 0 <= j < n /\ forall (g : rng rops) k,
      choose_split (g := g) bits var sp ms i k = c <-> r_bits (rng := g) k mod n = j.
  Proof.
    intros c Hc n.
    assert (EX : exists s, available var sp ms i (entry var i) s)
      by (exists c; apply In_cuts; [lia | exact Hc]).
    set (lr := split_range bits var sp ms i v).
    assert (AV : forall s, available var sp ms i v s <-> fst lr <= s < snd lr).
    { intros s. symmetry. apply (split_range_available bits d); auto; try lia.
      - intros a Ha Hda Ev. destruct EX as [s' [[_ A1] A2]]. specialize (A2 a true Ha Hda Ev).
        cbv beta iota in A2. fold v in A1. lia.
      - fold lr. now destruct lr. }
    assert (LR : fst lr < snd lr).
    { destruct EX as [s Hs']. apply AV in Hs'. lia. }
    assert (EN : n = snd lr - fst lr).
    { apply interval_length with (lo := fst lr); [lia | apply NoDup_cuts |].
      intros x. unfold ab. rewrite In_cuts by lia. rewrite AV. lia. }
    exists (c - fst lr). pose proof Hc as Hc'. apply In_cuts in Hc'; [| lia]. apply AV in Hc'.
    split; [lia |]. intros g k. unfold choose_split. rewrite (gather_in _ _ 0) by lia.
    change (zget 0 var i) with v. fold lr. destruct lr as [lo hi]. cbn [fst snd] in *.
    unfold randint. destruct (Z.leb_spec hi lo); [lia |]. rewrite <- EN. lia.
  Qed.
End Cut.

Lemma above_ext_pos : forall var sp var' sp' q,
  (forall a, 1 <= a < Zpos q -> entry var' a = entry var a /\ entry sp' a = entry sp a) ->
  above_pos var' sp' q = above_pos var sp q.
Proof.
  intros var sp var' sp'. induction q as [q IH | q IH |]; intros H; cbn [above_pos]; auto;
    (rewrite IH by (intros; apply H; lia); destruct (H (Zpos q) ltac:(lia)) as [-> ->]; reflexivity).
Qed.

Lemma above_ext : forall var sp var' sp' i, 1 <= i ->
  (forall a, 1 <= a < i -> entry var' a = entry var a /\ entry sp' a = entry sp a) ->
  above var' sp' i = above var sp i.
Proof. intros. unfold above. apply above_ext_pos. rewrite Z2Pos.id by lia. auto. Qed.

(** ** The proposal for one tree *)
Section Draws.
  Context {zo : zoob} {foo : foob rops}.
  Variable b : @bart rops.
  Hypothesis SO : setup_ok b.
  Let d := bd b.
  Let points := map (gather zmode) (X b).
  Let mp := min_points_per_leaf b.
  Let ms := max_split b.
  Let bits := split_bits b.
  Hypothesis HF : forall k, In k [8; 16; 32] -> zlen ms = 2 ^ k -> entry ms 0 <> 0.
  Variable t : @tree rops.
  Hypothesis TI : tree_inv b t.
  Let var := t_var t.
  Let sp := t_split t.
  Let tr := (var, sp).
  Let G := growing_leaves d points mp tr.
  Let weight (i : Z) : R := zget 0%R (p_propose_grow b) i.
  Hypothesis PW : forall i, 1 <= i < heap_size d -> (0 < weight i)%R.
  Hypothesis RV : forall i, decision sp i -> 0 <= entry var i /\ valid_rule var sp ms i.

  Lemma In_G : forall i, In i G <-> can_grow b t i.
  Proof.
    intros i. unfold G, d, points, mp. rewrite In_growing; auto.
    2: apply (ti_var _ _ TI). 2: apply (ti_split _ _ TI).
    unfold can_grow. rewrite (ti_idx _ _ TI). reflexivity.
  Qed.

  Lemma G_perm : Permutation (masked (growable_leaves sp (t_aff t))) G.
  Proof.
    apply masked_perm.
    - apply NoDup_growing; auto. apply (ti_split _ _ TI).
    - intros i. pose proof (zlen_growable b t TI) as L. fold sp in L. rewrite L. rewrite In_G. split.
      + intros H. pose proof (can_grow_bounds b t i H). split; [lia |]. apply (growable_spec b t TI); auto; lia.
      + intros [H1 H2]. now apply (growable_spec b t TI).
  Qed.

  Lemma ng_G : count_nonzero (growable_leaves sp (t_aff t)) = Z.of_nat (length G).
  Proof. rewrite count_masked. unfold zlen. f_equal. apply Permutation_length, G_perm. Qed.

  Let total := rsum (map weight G).
  Let distr := map2 (fun (c : bool) p => if c then p else 0%R) (growable_leaves sp (t_aff t)) (p_propose_grow b).

  Lemma distr_total : Rsum distr = total.
  Proof.
    pose proof (so_ppg_len _ SO) as Lp. fold d in Lp.
    pose proof (zlen_growable b t TI) as L. fold sp d in L.
    transitivity (fold_left Rplus distr 0%R); [rewrite fold_left_Rplus; lra |].
    unfold distr. rewrite masked_sum by (rewrite L; symmetry; exact Lp).
    apply rsum_perm. apply Permutation_map. apply G_perm.
  Qed.

  Lemma distr_facts : zlen distr = heap_size d /\ (forall x, In x distr -> (0 <= x)%R) /\
    forall i, In i G -> zget 0%R distr i = weight i.
  Proof.
    pose proof (so_ppg_len _ SO) as Lp. fold d in Lp.
    pose proof (zlen_growable b t TI) as L. fold sp d in L.
    assert (DG : forall i, 0 <= i < heap_size d -> zget 0%R distr i =
      if zget false (growable_leaves sp (t_aff t)) i then weight i else 0%R).
    { intros i Hi. unfold distr. rewrite (zget_map2 _ _ _ _ _ false 0%R) by (rewrite ?L; rlia). reflexivity. }
    assert (DL : zlen distr = heap_size d).
    { unfold distr. rewrite zlen_map2. change (@F rops) with R in Lp. lia. }
    split; [exact DL |]. split.
    - intros x Hx. apply In_zget with (d := 0%R) in Hx. destruct Hx as (i & Hi & <-).
      rewrite DL in Hi. rewrite DG by auto. destruct (zget false _ i) eqn:E; [| lra].
      apply (growable_spec b t TI) in E; auto. apply can_grow_bounds in E. left. apply PW; auto.
    - intros i Hi. apply In_G in Hi. pose proof (can_grow_bounds b t i Hi) as Hb.
      rewrite DG by (fold d in Hb; lia). apply (growable_spec b t TI) in Hi; [| lia]. fold sp in Hi. now rewrite Hi.
  Qed.

  (** the draws that give leaf [n] *)
  Lemma choose_leaf_draw : forall n, In n G ->
    exists lo, (0 <= lo /\ lo + weight n <= total /\ 0 < total /\ 0 < weight n)%R /\
      forall (g : rng rops), real_rng g -> forall k l ng pc np,
        choose_leaf (g := g) sp (t_aff t) (p_propose_grow b) k = (l, ng, pc, np) ->
        (l = n <-> (lo <= r_unif_to (rng := g) k (total : @F rops) < lo + weight n)%R).
  Proof.
    intros n Hn. destruct distr_facts as (DL & DP & DG).
    pose proof (proj1 (In_G n) Hn) as CG. pose proof (can_grow_bounds b t n CG) as Hb. fold d in Hb.
    pose proof distr_total as DT.
    exists (weight_before distr n). pose proof (PW n Hb) as WP.
    assert (L1 : (0 <= weight_before distr n)%R).
    { apply Rsum_nonneg. intros x Hx. apply DP. rewrite <- (firstn_skipn (Z.to_nat n)). apply in_or_app. now left. }
    assert (L2 : (weight_before distr n + weight n <= total)%R).
    { rewrite <- (DG n Hn), <- DT. unfold weight_before, zget. rewrite <- firstn_S_nth by (unfold zlen in DL; lia).
      rewrite <- (firstn_all distr) at 2. apply Rsum_firstn_mono; auto. unfold zlen in DL. lia. }
    split; [repeat split; auto; lra |].
    intros g rr k l ng pc np E. unfold choose_leaf in E.
    change (map2 _ _ _) with distr in E.
    assert (NE : count_nonzero (growable_leaves sp (t_aff t)) <> 0).
    { rewrite ng_G. destruct G; [destruct Hn | cbn [length]; lia]. }
    pose proof (categorical_interval (g := g) (foo := foo) k distr DP ltac:(rewrite DT; lra) n) as CI.
    cbv zeta in CI. rewrite DT in CI.
    destruct (categorical (fo := rops) k (distr : list (@F rops))) as [l0 tot] eqn:Ec. cbn [fst] in CI.
    destruct (Z.eqb_spec (count_nonzero (growable_leaves sp (t_aff t))) 0); [contradiction |].
    cbn [negb] in E. injection E as E1 _ _ _. rewrite <- E1, CI, (DG n Hn).
    split; [intros [_ H]; exact H |]. intros H. split; [lia | exact H].
  Qed.

  Lemma above_valid : forall n, In n G -> forall a b0, 1 <= a -> descends a b0 n ->
    0 <= entry var a /\ valid_rule var sp ms a.
  Proof.
    intros n Hn a b0 Ha Hd. apply RV. apply In_G in Hn. destruct Hn as ((R & _) & _).
    eapply reachable_above; eauto.
  Qed.

  (** the draws that give leaf [n] and rule [v, c] *)
  Lemma grow_draw : forall n v c, In n G ->
    let ab := above var sp n in
    In v (candidates bits ms ab) -> In c (cuts ms ab v) ->
    exists lo jv jc,
      (0 <= lo /\ lo + weight n <= total /\ 0 < total /\ 0 < weight n)%R /\
      0 <= jv < Z.of_nat (length (candidates bits ms ab)) /\
      0 <= jc < Z.of_nat (length (cuts ms ab v)) /\
      forall (g : rng rops), real_rng g -> forall k,
        let gm := grow_move (g := g) bits var sp (t_aff t) ms (p_nonterminal b) (p_propose_grow b) k in
        (g_node gm = n /\ g_var gm = v /\ g_split gm = c <->
         (lo <= r_unif_to (rng := g) (KSplit k 3 0) (total : @F rops) < lo + weight n)%R /\
         r_bits (rng := g) (KSplit k 3 1) mod Z.of_nat (length (candidates bits ms ab)) = jv /\
         r_bits (rng := g) (KSplit k 3 2) mod Z.of_nat (length (cuts ms ab v)) = jc).
  Proof.
    intros n v c Hn ab Hvc Hcc.
    pose proof (proj1 (In_G n) Hn) as CG. pose proof (can_grow_bounds b t n CG) as Hb. fold d in Hb.
    pose proof (ti_split _ _ TI) as Ls. pose proof (ti_var _ _ TI) as Lv. fold sp d in Ls. fold var d in Lv.
    pose proof (so_d _ SO) as Hd. fold d in Hd.
    pose proof (so_p _ SO) as Hp. unfold bp in Hp. fold ms in Hp.
    assert (Hms : forall w, 0 <= entry ms w < 2 ^ bits) by (intros w; apply (so_ms _ SO)).
    assert (HB : 1 <= bits) by (pose proof (so_bits _ SO); unfold bits; lia).
    pose proof (above_valid n Hn) as VR.
    destruct (choose_leaf_draw n Hn) as (lo & LO & HL).
    destruct (choose_variable_draw bits d var sp ms n Hd Lv Ls Hb Hp HB Hms HF VR v Hvc) as (jv & JV & HV).
    pose proof (proj1 (In_candidates bits d var sp ms n Hd Lv Ls Hb Hp HB Hms HF VR v) Hvc) as [Hvr _].
    set (var' := scatter_set var n v).
    assert (Lv' : zlen var' = heap_size d) by (unfold var'; now rewrite zlen_scatter_set).
    assert (EV : forall i, 0 <= i -> entry var' i = if i =? n then v else entry var i).
    { intros i Hi. unfold var'. rewrite entry_scatter by lia. reflexivity. }
    assert (Evn : entry var' n = v) by (rewrite EV, Z.eqb_refl; lia).
    assert (EA : above var' sp n = ab).
    { apply above_ext; [lia |]. intros a Ha. split; auto. rewrite EV by lia.
      destruct (Z.eqb_spec a n); auto; lia. }
    assert (CS := choose_split_draw bits d var' sp ms n Hd Lv' Ls Hb ltac:(lia) HB ltac:(apply Hms) c).
    rewrite Evn, EA in CS. destruct (CS Hcc) as (jc & JC & HC). clear CS.
    exists lo, jv, jc. split; [exact LO |]. split; [exact JV |]. split; [exact JC |].
    intros g rr k gm. unfold gm, grow_move.
    destruct (choose_leaf sp (t_aff t) (p_propose_grow b) (KSplit k 3 0)) as [[[l ng] pc] np] eqn:EL.
    specialize (HL g rr _ _ _ _ _ EL). cbn [g_node g_var g_split].
    assert (W : wrap (minimal_unsigned_bits (zlen ms - 1)) v = v).
    { apply wrap_small. pose proof (minimal_unsigned_bits_fits (zlen ms - 1) ltac:(lia)). lia. }
    specialize (HV g (KSplit k 3 1)). specialize (HC g (KSplit k 3 2)).
    split.
    - intros (E1 & E2 & E3). subst l. rewrite E2, W in E3. fold var' in E3.
      split; [now apply HL |]. split; [now apply HV | now apply HC].
    - intros (H1 & H2 & H3). apply HL in H1. subst l. apply HV in H2. split; auto. split; auto.
      rewrite H2, W. fold var'. now apply HC.
  Qed.

  (** the draws that give the node to prune *)
  Lemma prune_draw : forall n, prunable t n ->
    let np := leaf_parents (structure d var sp) in
    exists j, 0 <= j < np /\ forall (g : rng rops) k,
      pr_node (prune_move (g := g) sp (t_aff t) (p_nonterminal b) (p_propose_grow b) k) = n <->
      r_bits (rng := g) k mod np = j.
  Proof.
    intros n Hn np. pose proof (so_d _ SO) as Hd. fold d in Hd.
    pose proof (ti_split _ _ TI) as Ls. fold sp d in Ls.
    assert (EN : count_nonzero (is_leaves_parent sp) = np).
    { apply parents_count; auto. apply (ti_stray _ _ TI). }
    assert (Hb : 0 <= n < zlen sp) by (destruct Hn as [D _]; pose proof (decision_lt _ _ D) as Q; fold sp in Q; destruct D; lia).
    assert (TA : is_true_at (is_leaves_parent sp) n).
    { split; [lia |]. assert (Z : zget false (is_leaves_parent sp) n = true)
        by (apply (is_leaves_parent_spec d); auto; lia).
      unfold zget in Z. pose proof (zlen_is_leaves_parent sp) as L. unfold zlen in L, Hb.
      rewrite <- Z. apply nth_error_nth'. lia. }
    assert (PN : 0 < np).
    { rewrite <- EN. pose proof (count_nonzero_nonneg (is_leaves_parent sp)).
      destruct (Z.eq_dec (count_nonzero (is_leaves_parent sp)) 0) as [E | E]; [| lia].
      apply zget_bool_true in TA. destruct TA as [_ TA]. rewrite count_zero_zget in TA; auto. discriminate. }
    exists (trues_before (is_leaves_parent sp) n).
    assert (K : forall (g : rng rops) k,
      pr_node (prune_move (g := g) sp (t_aff t) (p_nonterminal b) (p_propose_grow b) k) = n <->
      r_bits (rng := g) k mod np = trues_before (is_leaves_parent sp) n).
    { intros g k. unfold prune_move, choose_leaf_parent. cbn [pr_node].
      destruct (randint_masked_spec (g := g) k (is_leaves_parent sp) ltac:(lia)) as (u & Hu & Eu & H).
      destruct (Z.eqb_spec (count_nonzero (is_leaves_parent sp)) 0); [lia |]. cbn [negb].
      rewrite H, <- EN, <- Eu. split; [intros [_ ->]; reflexivity | intros ->; auto]. }
    split; [| exact K].
    split; [apply trues_before_nonneg |]. rewrite <- EN.
    rewrite count_trues_before. destruct TA as [T1 T2]. unfold trues_before.
    pose proof (zlen_is_leaves_parent sp) as L. set (mask := is_leaves_parent sp) in *. clearbody mask.
    unfold zlen in *. rewrite Nat2Z.id.
    rewrite firstn_all.
    assert (CO : count_occ bool_dec mask true =
      (count_occ bool_dec (firstn (Z.to_nat n) mask) true + count_occ bool_dec (skipn (Z.to_nat n) mask) true)%nat)
      by now rewrite <- count_occ_app, firstn_skipn.
    rewrite CO.
    assert (SK : exists r, skipn (Z.to_nat n) mask = true :: r).
    { clear - T2. revert T2. generalize (Z.to_nat n) as q. induction mask as [| x mask IH]; intros q T2.
      - destruct q; discriminate.
      - destruct q; cbn [nth_error skipn] in *; [injection T2 as ->; eauto | auto]. }
    destruct SK as [r ->].
    cbn [count_occ]. destruct (bool_dec true true); [lia | congruence].
  Qed.

  Lemma p_grow_value : forall (g : rng rops) (rr : real_rng g) k k',
    let gm := grow_move (g := g) bits var sp (t_aff t) ms (p_nonterminal b) (p_propose_grow b) k in
    let pm := prune_move (g := g) sp (t_aff t) (p_nonterminal b) (p_propose_grow b) k' in
    (if negb (g_num_growable gm =? 0) && pr_allowed pm then / 2
     else if negb (g_num_growable gm =? 0) then 1 else 0)%R = prob_grow d points mp tr.
  Proof.
    intros g rr k k' gm pm. pose proof (so_d _ SO) as Hd. fold d in Hd.
    assert (EN : g_num_growable gm = Z.of_nat (length G)).
    { rewrite <- ng_G. unfold gm, grow_move, choose_leaf. destruct (categorical _ _). reflexivity. }
    assert (EA : pr_allowed pm = negb (is_stump (structure_of d tr))).
    { unfold structure_of. cbn [fst snd tr]. unfold d. rewrite (stump_1 b SO var sp (ti_split _ _ TI)).
      unfold pm, prune_move, choose_leaf_parent. cbn [pr_allowed].
      pose proof (ti_split _ _ TI) as Ls. fold sp d in Ls.
      pose proof (heap_ge2 b SO) as H2. fold d in H2. rewrite (gather_in _ _ 0) by lia. reflexivity. }
    rewrite EN, EA. unfold prob_grow. fold G.
    destruct G as [| i l]; [reflexivity |]. cbn [length].
    replace (Z.of_nat (S (length l)) =? 0) with false by (symmetry; apply Z.eqb_neq; lia). cbn [negb andb].
    destruct (is_stump _); cbn [negb]; lra.
  Qed.
End Draws.
