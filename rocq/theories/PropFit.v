(** Consequences for [gbart] of the properties of the sampler (C08, C11, C32,
    C49). *)
From Coq Require Import String ZArith List Bool Reals Lia Lra.
From Verif Require Import Base LemBase Laws SpecExact ModelJaxext ModelGrove ModelStep ModelLoop ModelPrep ModelBART
  ModelInterface SpecTree SpecForest SpecRun SpecLoop SpecPrep SpecBART SpecInterface SpecChance SpecBalance
  ProofRun ProofTree ProofPrep ProofBART PropLoop PropTypes PropForest PropTree PropBART PropInterface ExampleReal.
Import ListNotations.
Open Scope Z_scope.

(** ** Nodes under a node *)
Definition under (i j : Z) : Prop := exists b, 0 <= b /\ j / 2 ^ b = i.

Lemma under_refl i : under i i.
Proof. exists 0. split; [lia |]. now rewrite Z.pow_0_r, Z.div_1_r. Qed.

Lemma under_child i c j : c / 2 = i -> under c j -> under i j.
Proof.
  intros E (b & Hb & Ej). exists (b + 1). split; [lia |].
  rewrite Z.pow_add_r, <- Z.div_div by (try lia; apply Z.pow_pos_nonneg; lia). now rewrite Ej.
Qed.

Lemma half_left i : 2 * i / 2 = i.
Proof. rewrite Z.mul_comm. apply Z.div_mul. lia. Qed.
Lemma half_right i : (2 * i + 1) / 2 = i.
Proof. replace (2 * i + 1) with (1 + i * 2) by lia. rewrite Z.div_add by lia. reflexivity. Qed.

Lemma under_pos i j : 1 <= i -> under i j -> i <= j.
Proof.
  intros Hi (b & Hb & <-). assert (P : 0 < 2 ^ b) by (apply Z.pow_pos_nonneg; lia).
  destruct (Z.le_gt_cases 0 j) as [H | H].
  - apply Z.div_le_upper_bound; nia.
  - assert (j / 2 ^ b < 0) by (apply Z.div_lt_upper_bound; lia). lia.
Qed.

Lemma div_pow_add j b c : 0 <= b -> 0 <= c -> j / 2 ^ (b + c) = j / 2 ^ b / 2 ^ c.
Proof.
  intros Hb Hc. rewrite Z.pow_add_r by lia. symmetry. apply Z.div_div; [| apply Z.pow_pos_nonneg; lia].
  apply Z.pow_nonzero; lia.
Qed.

(** The subtrees of two siblings are disjoint. *)
Lemma under_siblings i j : 1 <= i -> under (2 * i) j -> under (2 * i + 1) j -> False.
Proof.
  intros Hi (b & Hb & E) (c & Hc & E').
  assert (G : forall b c, 0 <= b -> 0 < c -> j / 2 ^ b = 2 * i -> j / 2 ^ (b + c) = 2 * i + 1 -> False).
  { intros b0 c0 H1 H2 E1 E2. rewrite (div_pow_add j b0 c0) in E2 by lia.
    rewrite E1 in E2. assert (P1 : 0 < 2 ^ c0) by (apply Z.pow_pos_nonneg; lia).
    assert (2 * i / 2 ^ c0 <= 2 * i) by (apply Z.div_le_upper_bound; [exact P1 | generalize dependent (2 ^ c0); intros; nia]).
    lia. }
  assert (G' : forall b c, 0 <= b -> 0 < c -> j / 2 ^ b = 2 * i + 1 -> j / 2 ^ (b + c) = 2 * i -> False).
  { intros b0 c0 H1 H2 E1 E2. rewrite (div_pow_add j b0 c0) in E2 by lia.
    rewrite E1 in E2. assert (P1 : 2 ^ 1 <= 2 ^ c0) by (apply Z.pow_le_mono_r; lia). change (2 ^ 1) with 2 in P1.
    pose proof (Z.div_le_compat_l (2 * i + 1) 2 (2 ^ c0) ltac:(lia) ltac:(lia)) as P2. rewrite half_right in P2. lia. }
  destruct (Z.lt_trichotomy b c) as [L | [-> | L]].
  - apply (G b (c - b)); try lia; auto. now replace (b + (c - b)) with c by lia.
  - lia.
  - apply (G' c (b - c)); try lia; auto. now replace (c + (b - c)) with b by lia.
Qed.

Lemma leaf_of_under x var sp : forall levels i, under i (leaf_of levels x var sp i).
Proof.
  induction levels as [| levels IH]; intros i; cbn [leaf_of]; [apply under_refl |].
  destruct (_ =? 0); [apply under_refl |]. destruct (_ <? _).
  - apply (under_child _ (2 * i)); [apply half_left | apply IH].
  - apply (under_child _ (2 * i + 1)); [apply half_right | apply IH].
Qed.

(** ** Leaves of the tree and points *)
Section Leaves.
  Variables (splits : list (list ext)) (m : Z) (leaf : list R) (var sp : list Z).
  Variable pts : Type.
  Variables (bin : pts -> Z -> Z) (raw : pts -> list R).
  Hypothesis rule : forall p i, decision sp i ->
    sends_right splits (entry var i) (entry sp i) (raw p) = negb (bin p (entry var i) <? entry sp i).

  Lemma filter_map_raw (h : list R -> bool) l : filter h (map raw l) = map raw (filter (fun p => h (raw p)) l).
  Proof. induction l as [| p l IH]; [reflexivity |]. cbn [map filter]. destruct (h (raw p)); cbn [map]; now rewrite IH. Qed.

  Lemma leaves_have_decode : forall levels i l, 1 <= i -> zlen sp <= i * 2 ^ Z.of_nat levels -> reachable sp i ->
    (forall j, leaf_node sp j -> under i j ->
       m <= zlen (filter (fun p => leaf_of levels (bin p) var sp i =? j) l)) ->
    leaves_have splits m (decode 0%R leaf var sp levels i) (map raw l).
  Proof.
    induction levels as [| levels IH]; intros i l Hi Hz R H.
    - cbn [decode leaves_have]. rewrite zlen_map.
      assert (LN : leaf_node sp i).
      { split; [exact R |]. intros [_ D]. apply D. unfold entry. apply nth_overflow. unfold zlen in Hz.
        change (2 ^ Z.of_nat 0) with 1 in Hz. lia. }
      specialize (H i LN (under_refl i)). cbn [leaf_of] in H.
      replace (filter (fun _ => i =? i) l) with l in H; [exact H |]. rewrite Z.eqb_refl. clear. induction l; cbn [filter]; congruence.
    - cbn [decode]. destruct (Z.eqb_spec (entry sp i) 0) as [E | E].
      + cbn [leaves_have]. rewrite zlen_map.
        assert (LN : leaf_node sp i) by (split; [exact R | intros [_ D]; congruence]).
        specialize (H i LN (under_refl i)). cbn [leaf_of] in H. rewrite E, Z.eqb_refl in H.
        replace (filter (fun _ => i =? i) l) with l in H; [exact H |]. rewrite Z.eqb_refl. clear. induction l; cbn [filter]; congruence.
      + assert (D : decision sp i) by (split; auto). cbn [leaves_have]. rewrite !filter_map_raw.
        assert (Z2 : 2 ^ Z.of_nat (S levels) = 2 * 2 ^ Z.of_nat levels).
        { rewrite Nat2Z.inj_succ, Z.pow_succ_r by lia. reflexivity. }
        assert (P2 : 0 < 2 ^ Z.of_nat levels) by (apply Z.pow_pos_nonneg; lia).
        assert (FF : forall (h h' : pts -> bool) l, (forall p, h p = h' p) -> filter h l = filter h' l).
        { clear. intros h h' l E. induction l as [| p l IH]; [reflexivity |]. cbn [filter]. now rewrite E, IH. }
        assert (FA : forall (h h' : pts -> bool) l, filter h (filter h' l) = filter (fun p => h' p && h p) l).
        { clear. intros h h' l. induction l as [| p l IH]; [reflexivity |]. cbn [filter]. destruct (h' p); cbn [filter andb];
            [destruct (h p) |]; now rewrite IH. }
        split; apply IH; try nia.
        * now constructor.
        * intros j Lj Uj. specialize (H j Lj (under_child _ _ _ (half_left i) Uj)). etransitivity; [exact H |].
          rewrite FA. erewrite FF; [apply Z.le_refl |]. intros p. cbn beta. rewrite (rule p i D), negb_involutive.
          cbn [leaf_of]. destruct (Z.eqb_spec (entry sp i) 0); [contradiction |].
          destruct (bin p (entry var i) <? entry sp i); [reflexivity |]. cbn [andb].
          apply Z.eqb_neq. intros <-. exact (under_siblings i _ Hi Uj (leaf_of_under _ _ _ _ _)).
        * now constructor.
        * intros j Lj Uj. specialize (H j Lj (under_child _ _ _ (half_right i) Uj)). etransitivity; [exact H |].
          rewrite FA. erewrite FF; [apply Z.le_refl |]. intros p. cbn beta. rewrite (rule p i D).
          cbn [leaf_of]. destruct (Z.eqb_spec (entry sp i) 0); [contradiction |].
          destruct (bin p (entry var i) <? entry sp i); [| reflexivity]. cbn [andb negb].
          apply Z.eqb_neq. intros <-. exact (under_siblings i _ Hi (leaf_of_under _ _ _ _ _) Uj).
  Qed.
End Leaves.

Section Props.
  Context {ex : external} {zo : zoob} {foo : foob rops} {g : rng rops}.

  (** C32. Fits that differ only in the numbers of iterations have the same
      settings, and the same predictions and noise standard deviations wherever
      the numbers of iterations done are the same. *)
  Theorem C32_gbart : forall a ndpost' nskip' keepevery' printevery' j j',
    0 <= nskip a -> 0 <= ndpost a -> 0 <= keepevery a -> 0 <= nskip' -> 0 <= ndpost' -> 0 <= keepevery' ->
    let r := fst (fit a) in
    let r' := fst (fit (reschedule a ndpost' nskip' keepevery' printevery')) in
    0 <= j < ndpost a -> 0 <= j' < ndpost' ->
    nskip a + (j + 1) * keepevery a = nskip' + (j' + 1) * keepevery' ->
    (g_offset r', g_scale r', g_lamda r', g_sigest r', g_splits r') = (g_offset r, g_scale r, g_lamda r, g_sigest r, g_splits r) /\
    nth_error (g_sigma r') (Z.to_nat j') = nth_error (g_sigma r) (Z.to_nat j) /\
    nth_error (yhat_train r') (Z.to_nat j') = nth_error (yhat_train r) (Z.to_nat j) /\
    forall x yhat yhat', predict r x = Some yhat -> predict r' x = Some yhat' ->
      nth_error yhat' (Z.to_nat j') = nth_error yhat (Z.to_nat j).
  Proof.
    intros a nd' ns' ke' pe' j j' H1 H2 H3 H1' H2' H3' r r' Hj Hj' E.
    set (a' := reschedule a nd' ns' ke' pe') in *.
    assert (EP : prepare a' = prepare a) by reflexivity.
    destruct (fit_spec a H1 H2 H3) as (F1 & X1 & N1 & S1 & G1 & _). destruct (fit_spec a' H1' H2' H3') as (F2 & X2 & N2 & S2 & G2 & _).
    fold r in F1, X1, N1, S1, G1. fold r' in F2, X2, N2, S2, G2. rewrite EP in X2, S2.
    assert (ES : (g_offset r', g_scale r', g_lamda r', g_sigest r', g_splits r') = (g_offset r, g_scale r, g_lamda r, g_sigest r, g_splits r))
      by congruence.
    assert (SS : saved_state a' (Z.to_nat j') = saved_state a (Z.to_nat j)).
    { unfold saved_state. rewrite EP. change (seed a') with (seed a). f_equal.
      change (nskip a') with ns'. change (keepevery a') with ke'. nia. }
    assert (NS : forall n i A (h : nat -> A), (i < n)%nat -> nth_error (map h (seq 0 n)) i = Some (h i)).
    { intros n i A h Hi. rewrite nth_error_map, (nth_error_nth' _ 0%nat) by (rewrite seq_length; exact Hi).
      now rewrite seq_nth by exact Hi. }
    injection ES as EO ESC EL EG EP'.
    assert (FF : nth_error (trace_forests (g_main_trace r')) (Z.to_nat j') = nth_error (trace_forests (g_main_trace r)) (Z.to_nat j)).
    { rewrite F1, F2. change (ndpost a') with nd'. rewrite !NS by lia. now rewrite SS. }
    assert (PR : forall x, nth_error (transform_output (predict_binned (g_main_trace r') x) (g_offset r') (g_scale r')) (Z.to_nat j') =
      nth_error (transform_output (predict_binned (g_main_trace r) x) (g_offset r) (g_scale r)) (Z.to_nat j)).
    { intros x. unfold transform_output, predict_binned, evaluate_trace. rewrite EO, ESC. rewrite !map_map.
      rewrite (nth_error_map _ (Z.to_nat j)), (nth_error_map _ (Z.to_nat j')).
      exact (f_equal _ FF). }
    split; [congruence |]. split; [| split].
    - rewrite G1, G2. change (ndpost a') with nd'. rewrite !NS by lia. rewrite SS, ESC. reflexivity.
    - unfold yhat_train. rewrite X1, X2. apply PR.
    - intros x yh yh'. unfold predict. rewrite N1, N2, EP'. change (x_train a') with (x_train a).
      destruct (_ =? _); [| discriminate]. intros [= <-] [= <-]. apply PR.
  Qed.
  Print Assumptions C32_gbart.

  Context {rl : rlaws g}.
  Variable a : gbart_args.
  Hypothesis OK : args_ok a.
  Let r : gbart := fst (fit a).

  Lemma reached_saved j : reached (fst (prepare a)) (saved_state a j).
  Proof. unfold saved_state. exact (chain_reached (fst (prepare a)) (seed a) _). Qed.

  Lemma prepare_depth : depth_of (fst (prepare a)) = maxdepth a.
  Proof. unfold depth_of. destruct (prepare_settings a OK) as (_ & _ & _ & _ & PD & _). rewrite PD. lia. Qed.

  Lemma saved_forests : trace_forests (g_main_trace r) = map (fun j => forest (saved_state a j)) (seq 0 (Z.to_nat (ndpost a))).
  Proof. apply (fit_spec a (go_nskip a OK) (go_ndpost a OK) (go_keepevery a OK)). Qed.

  Lemma min_points_of m :
    kw_min_points (initkw a) = Some (Some m) \/ kw_min_points (initkw a) = None /\ m = 5 ->
    i_min_points (fst (prepare a)) = Some m.
  Proof.
    intros H. destruct (prepare_settings a OK) as (_ & _ & _ & _ & _ & -> & _). destruct H as [-> | [-> ->]]; reflexivity.
  Qed.

  (** C11. With less than twice as many points as required in each leaf, the
      regression function is constant in all the saved iterations. *)
  Theorem C11_gbart : forall m,
    kw_min_points (initkw a) = Some (Some m) \/ kw_min_points (initkw a) = None /\ m = 5 ->
    zlen (y_train a) < 2 * m ->
    (forall j, 0 <= j < ndpost a -> forall x x', regression r (maxdepth a) (Z.to_nat j) x = regression r (maxdepth a) (Z.to_nat j) x') /\
    (forall x yhat row u v, (forall row, In row x -> zlen row = ncols x) ->
       predict r x = Some yhat -> In row yhat -> In u row -> In v row -> u = v).
  Proof.
    intros m HM HN. pose proof (prepare_ok a OK) as SOK. pose proof (min_points_of m HM) as MP.
    assert (HX : zlen (i_X (fst (prepare a))) < 2 * m).
    { rewrite (ok_n _ SOK). destruct (prepare_settings a OK) as (_ & _ & _ & -> & _). exact HN. }
    assert (G : forall j, 0 <= j < ndpost a -> forall x x',
      regression r (maxdepth a) (Z.to_nat j) x = regression r (maxdepth a) (Z.to_nat j) x').
    { intros j Hj x x'. unfold regression. rewrite saved_forests. rewrite nth_map_seq by lia.
      destruct (C11_constant _ _ m SOK (reached_saved (Z.to_nat j)) MP HX) as [ND _].
      f_equal. f_equal. f_equal. apply map_ext_in. intros t Ht. apply in_map_iff in Ht as (t0 & <- & Ht0).
      specialize (ND t0 1 Ht0). unfold tree_of. cbn [fst snd].
      destruct (Z.to_nat (maxdepth a - 1)) as [| l]; [reflexivity |]. cbn [decode].
      destruct (Z.eqb_spec (entry (t_split t0) 1) 0); [reflexivity |]. exfalso. apply ND. split; [lia | assumption]. }
    split; [exact G |]. intros x yhat row u v HR HP Hrow Hu Hv.
    assert (NL : nonempty_leaves a).
    { pose proof (go_n a OK). destruct HM as [HM | [HM ->]]; [right; exists m; split; [exact HM | lia] | now left]. }
    assert (HL : length x = length (x_train a)).
    { unfold predict in HP. destruct (Z.eqb_spec (zlen x) (g_num_covar r)) as [E | E]; [| discriminate].
      destruct (fit_spec a (go_nskip a OK) (go_ndpost a OK) (go_keepevery a OK)) as (_ & _ & EN & _). fold r in EN.
      unfold zlen in E, EN. lia. }
    unfold r in HP. rewrite (predict_regression a x (ncols x) OK NL HL HR) in HP. injection HP as <-.
    apply in_map_iff in Hrow as (j & <- & Hj). apply in_seq in Hj.
    apply in_map_iff in Hu as (i & <- & _). apply in_map_iff in Hv as (i' & <- & _).
    specialize (G (Z.of_nat j) ltac:(lia) (point 0%R x i) (point 0%R x i')). rewrite Nat2Z.id in G. exact G.
  Qed.
  Print Assumptions C11_gbart.

  (** C08. Every saved tree with a decision node has in each leaf at least the
      minimum number of training points, which go through it by comparing their
      raw predictors with the cutpoints. *)
  Theorem C08_gbart : forall m forest t,
    kw_min_points (initkw a) = Some (Some m) \/ kw_min_points (initkw a) = None /\ m = 5 -> 1 <= m ->
    In forest (trace_forests (g_main_trace r)) -> In t forest ->
    let points := map (point 0%R (x_train a)) (seq 0 (length (y_train a))) in
    let tree := tree_of 0%R (maxdepth a) t in
    (exists v, tree = DLeaf v) \/ leaves_have (g_splits r) m tree points.
  Proof.
    intros m f t HM Hm Hf Ht points tree. pose proof (prepare_ok a OK) as SOK. pose proof (min_points_of m HM) as MP.
    rewrite saved_forests in Hf. apply in_map_iff in Hf as (j & <- & _). apply in_map_iff in Ht as (t0 & <- & Ht0).
    pose proof (reached_saved j) as R.
    destruct (C05_forest_well_formed _ _ SOK R) as [_ W]. destruct (W t0 Ht0) as (_ & _ & WS & _). rewrite prepare_depth in WS.
    pose proof (go_depth a OK) as HD.
    destruct (Z.eq_dec (entry (t_split t0) 1) 0) as [E | E].
    { left. unfold tree, tree_of. cbn [fst snd]. destruct (Z.to_nat (maxdepth a - 1)) as [| l]; [eexists; reflexivity |].
      cbn [decode]. rewrite E. eexists. reflexivity. }
    right. assert (D1 : decision (t_split t0) 1) by (split; [lia | exact E]).
    pose proof (train_in_range a OK) as TR. pose proof (train_width a OK) as TW.
    destruct (prepare_settings a OK) as (PX & PM & _ & PY & _ & _ & _ & _ & _ & _ & (o & sc & la & se & PS)).
    destruct (splits_rows a OK) as (L1 & L2 & SR).
    destruct (fit_spec a (go_nskip a OK) (go_ndpost a OK) (go_keepevery a OK)) as (_ & _ & _ & ES & _). fold r in ES.
    set (splits := fst (fst (determine_splits (x_train a) (usequants a) (numcut a)))) in *.
    set (ms := snd (fst (determine_splits (x_train a) (usequants a) (numcut a)))) in *.
    assert (ESP : g_splits r = splits).
    { rewrite PS in ES. cbn [snd] in ES. now injection ES as _ _ _ _ <-. }
    rewrite ESP.
    destruct (bin_columns_spec a OK (x_train a) (zlen (y_train a)) eq_refl (go_rows a OK)) as [BL BC]. fold splits in BL, BC.
    assert (RULES : forall q, decision (t_split t0) q -> 0 <= entry (t_var t0) q < zlen splits /\
       1 <= entry (t_split t0) q <= zlen (nth (Z.to_nat (entry (t_var t0) q)) splits [])).
    { intros q D. destruct (C10_rules_valid _ _ t0 m SOK R Ht0 MP Hm TW TR q D) as (V1 & V2 & _).
      rewrite PM in V1, V2. unfold zlen in V1. rewrite L2 in V1. unfold zlen at 1. rewrite L1. split; [lia |].
      destruct (nth_error (x_train a) (Z.to_nat (entry (t_var t0) q))) as [row |] eqn:Et; [| apply nth_error_None in Et; lia].
      destruct (SR _ row Et) as (s & mm & E1 & E2 & _ & M & _).
      rewrite (nth_error_nth _ _ [] E1). unfold entry at 3 in V2.
      fold ms in V2. rewrite (nth_error_nth _ _ 0 E2) in V2. lia. }
    set (bins := bin_columns (x_train a) splits) in *.
    set (P := {i : nat | (i < length (y_train a))%nat}).
    assert (EPTS : exists l : list P, map (fun p => proj1_sig p) l = seq 0 (length (y_train a))).
    { assert (G : forall n l, (forall i, In i l -> (i < n)%nat) -> exists l' : list {i : nat | (i < n)%nat}, map (fun p => proj1_sig p) l' = l).
      { intros n l. induction l as [| i l IH]; intros H; [exists []; reflexivity |].
        destruct IH as [l' IH]; [intros; apply H; now right |].
        exists (exist _ i (H i (or_introl eq_refl)) :: l'). cbn [map proj1_sig]. now rewrite IH. }
      apply G. intros i Hi. apply in_seq in Hi. lia. }
    destruct EPTS as [l EL].
    assert (POINTS : points = map (fun p : P => point 0%R (x_train a) (proj1_sig p)) l).
    { unfold points. rewrite <- EL, map_map. reflexivity. }
    rewrite POINTS. unfold tree, tree_of. cbn [fst snd].
    apply (leaves_have_decode splits m (t_leaf t0) (t_var t0) (t_split t0) P
      (fun p => gather zmode (nth (proj1_sig p) bins [])) (fun p => point 0%R (x_train a) (proj1_sig p))).
    - intros [i Hi] q D. cbn [proj1_sig].
      assert (BI : (i < Z.to_nat (zlen (y_train a)))%nat) by (unfold zlen; lia).
      destruct (BC i BI) as [BW BB].
      pose proof (raw_tree splits (nth i bins []) (point 0%R (x_train a) i)
        (map (fun k => IZR (k mod 2)) (arange (2 * q + 2))) (t_var t0) (t_split t0) 0%R) as RT.
      assert (HB : forall v, 0 <= v < zlen splits ->
       0 <= v < zlen (nth i bins []) /\ nondecreasing ext_lt (nth (Z.to_nat v) splits []) /\
       in_bin ext_lt (nth (Z.to_nat v) splits []) (entry (nth i bins []) v) (Some (nth (Z.to_nat v) (point 0%R (x_train a) i) 0%R))).
      { intros v Hv. unfold zlen in Hv. rewrite L1 in Hv. split; [unfold zlen; rewrite BW; lia |].
        destruct (nth_error (x_train a) (Z.to_nat v)) as [row |] eqn:Et; [| apply nth_error_None in Et; lia].
        destruct (SR _ row Et) as (s & mm & E1 & E2 & ND & _).
        rewrite (nth_error_nth _ _ [] E1). split; [exact ND |].
        specialize (BB _ s row E1 Et).
        unfold point. rewrite (nth_indep _ 0%R (nth i [] 0%R)) by (rewrite map_length; lia).
        rewrite (map_nth (fun row => nth i row 0%R)). rewrite (nth_error_nth _ _ [] Et). exact BB. }
      destruct D as [D0 D]. specialize (RT HB RULES 1%nat q D0). cbn [decode] in RT.
      destruct (Z.eqb_spec (entry (t_split t0) q) 0) as [N | _]; [congruence |]. cbn [dt_eval raw_eval] in RT.
      assert (LF : forall k, 0 <= k < 2 * q + 2 ->
        nth (Z.to_nat k) (map (fun k => IZR (k mod 2)) (arange (2 * q + 2))) 0%R = IZR (k mod 2)).
      { intros k Hk. change (zget 0%R (map (fun k => IZR (k mod 2)) (arange (2 * q + 2))) k = IZR (k mod 2)).
        rewrite (zget_map _ _ _ 0) by (rewrite zlen_arange; lia). now rewrite zget_arange by lia. }
      assert (L0 : (2 * q) mod 2 = 0) by (rewrite Z.mul_comm; apply Z.mod_mul; lia).
      assert (L3 : (2 * q + 1) mod 2 = 1) by (rewrite Z.add_comm, Z.mul_comm, Z.mod_add by lia; reflexivity).
      rewrite !LF, L0, L3 in RT by lia.
      unfold sends_right. destruct (gather zmode (nth i bins []) (entry (t_var t0) q) <? entry (t_split t0) q); cbn [negb].
      + match goal with |- context [match ?o with Some _ => _ | None => _ end] => destruct o as [c |] end; [| reflexivity]. destruct (Rlt_dec c _); [lra | reflexivity].
      + match goal with |- context [match ?o with Some _ => _ | None => _ end] => destruct o as [c |] end; [| lra]. destruct (Rlt_dec c _); [reflexivity | lra].
    - lia.
    - rewrite Z2Nat.id by lia. rewrite WS. lia.
    - constructor.
    - intros q Lq _.
      pose proof (C08_min_points_per_leaf _ _ t0 m SOK R Ht0 MP (ex_intro _ 1 D1) q Lq) as C8. rewrite prepare_depth in C8.
      etransitivity; [exact C8 |]. unfold points_in.
      replace (Z.to_nat (maxdepth a) - 1)%nat with (Z.to_nat (maxdepth a - 1)) by lia.
      unfold points_of. rewrite PX. change (bin_columns (x_train a) _) with bins.
      assert (EB : bins = map (fun p : P => nth (proj1_sig p) bins []) l).
      { transitivity (map (fun i => nth i bins []) (map (fun p : P => proj1_sig p) l)); [| apply map_map].
        transitivity (map (fun i => nth i bins []) (seq 0 (length (y_train a)))); [| f_equal; symmetry; exact EL].
        replace (length (y_train a)) with (length bins) by (unfold zlen in BL; lia). symmetry. apply list_nth_seq. }
      rewrite EB at 1. rewrite map_map. unfold zlen. apply inj_le. clear. generalize bins. intros bs.
      induction l as [| p l IH]; [cbn; lia |]. cbn [map filter]. destruct (_ =? q); cbn [length]; lia.
  Qed.
  Print Assumptions C08_gbart.

  (** C49. The settings of gbart are among those considered by C49, with 0 <
      base < 1, power >= 0, and a number of predictors which is not the number of
      values of an integer type. *)
  Theorem C49_gbart : forall m,
    kw_min_points (initkw a) = Some (Some m) \/ kw_min_points (initkw a) = None /\ m = 5 -> 1 <= m ->
    (0 < base a < 1)%R -> (0 <= power a)%R ->
    (forall k, In k [8; 16; 32] -> zlen (x_train a) <> 2 ^ k) ->
    regular (fst (prepare a)) m /\ depth_of (fst (prepare a)) = maxdepth a /\
    forall j, reached (fst (prepare a)) (saved_state a j).
  Proof.
    intros m HM Hm HB HP HK. split; [| split; [exact prepare_depth | exact reached_saved]].
    split.
    - exact (prepare_ok a OK).
    - exact (min_points_of m HM).
    - exact Hm.
    - exact (train_width a OK).
    - exact (train_in_range a OK).
    - intros d Hd. rewrite prepare_depth in Hd. unfold nonterminal.
      assert (EP : i_p_nonterminal (fst (prepare a)) =
        map (fun depth => base a / Rpower (IZR (1 + depth)) (power a))%R (arange (maxdepth a - 1))).
      { unfold prepare. destruct (process_noise_variance _ _ _ _ _ _ _). destruct (determine_splits _ _ _) as [[? ?] ?].
        reflexivity. }
      rewrite EP.
      change (0 < zget 0%R (map (fun depth => base a / Rpower (IZR (1 + depth)) (power a))%R (arange (maxdepth a - 1))) d < 1)%R.
      rewrite (zget_map _ _ _ 0) by (rewrite zlen_arange; lia). rewrite zget_arange by lia.
      assert (I1 : (1 <= IZR (1 + d))%R) by (apply (IZR_le 1); lia).
      assert (L1 : (1 <= Rpower (IZR (1 + d)) (power a))%R).
      { unfold Rpower. rewrite <- exp_0. 
        assert (LN : (0 <= ln (IZR (1 + d)))%R).
        { rewrite <- ln_1. destruct I1 as [I1 | <-]; [left; apply ln_increasing; lra | right; reflexivity]. }
        pose proof (Rmult_le_pos _ _ HP LN) as M. destruct M as [M | <-]; [left; now apply exp_increasing | right; reflexivity]. }
      split; [apply Rdiv_lt_0_compat; lra |].
      apply (Rmult_lt_reg_r (Rpower (IZR (1 + d)) (power a))); [lra |]. unfold Rdiv. rewrite Rmult_assoc, Rinv_l by lra. lra.
    - intros k Hk E. elim (HK k Hk). rewrite <- E. destruct (prepare_settings a OK) as (_ & EM & _).
      destruct (splits_rows a OK) as (_ & L2 & _). unfold zlen. now rewrite EM, L2.
  Qed.
  Print Assumptions C49_gbart.
End Props.

(** The default arguments, as in the example in PropBART.v, meet the conditions;
    with 6 points and at least 5 in each leaf the function is constant. *)
Example ex_fit : args_ok (ex_args true) /\ kw_min_points (initkw (ex_args true)) = None /\
  zlen (y_train (ex_args true)) < 2 * 5 /\ (0 < base (ex_args true) < 1)%R /\ (0 <= power (ex_args true))%R /\
  zlen (x_train (ex_args true)) = 2.
Proof.
  split; [apply ex_args_ok |]. split; [reflexivity |]. split; [reflexivity |]. cbn [ex_args base power].
  split; [lra |]. split; [lra | reflexivity].
Qed.

(** A tree with two leaves, one of which has 2 of the 3 points *)
Example ex_leaves_have : let t := DNode 0 1 (DLeaf 10%R) (DLeaf 20%R) in
  leaves_have [[Some (5 / 2)%R]] 1 t [[1%R]; [2%R]; [3%R]] /\ ~ leaves_have [[Some (5 / 2)%R]] 2 t [[1%R]; [2%R]; [3%R]].
Proof.
  cbv zeta. cbn [leaves_have].
  assert (S : forall x, sends_right [[Some (5 / 2)%R]] 0 1 [x] = if Rlt_dec (5 / 2) x then true else false) by reflexivity.
  cbn [filter]. rewrite !S. destruct (Rlt_dec (5 / 2) 1); [lra |]. destruct (Rlt_dec (5 / 2) 2); [lra |].
  destruct (Rlt_dec (5 / 2) 3); [| lra]. cbn [negb]. unfold zlen. cbn [length]. lia.
Qed.
