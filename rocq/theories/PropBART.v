(** [gbart] (C28, C36). *)
From Coq Require Import String ZArith List Bool Reals Lia Lra.
From Verif Require Import Base LemBase Laws SpecExact ModelJaxext ModelGrove ModelStep ModelLoop ModelPrep ModelBART
  SpecTree SpecRun SpecLoop SpecPrep SpecBART ProofRun ProofPrep PropPrep PropLoop PropForest PropTree PropTypes PropExact
  ProofBART ExampleReal.
Import ListNotations.
Open Scope Z_scope.

Lemma list_nth_seq {A} (d : A) l : map (fun i => nth i l d) (seq 0 (length l)) = l.
Proof.
  induction l as [| x l IH]; [reflexivity |]. cbn [length seq map nth]. f_equal.
  rewrite <- seq_shift, map_map. exact IH.
Qed.

Lemma nth_map_seq {A} (h : nat -> A) d n j : (j < n)%nat -> nth j (map h (seq 0 n)) d = h j.
Proof.
  intros H. rewrite (nth_indep _ d (h O)) by (rewrite map_length, seq_length; exact H).
  rewrite map_nth, seq_nth by exact H. reflexivity.
Qed.

Lemma zlen_sum_rows {fo : fops} n (rows : list (list F)) :
  (forall row, In row rows -> zlen row = Z.of_nat n) -> zlen (sum_rows n rows) = Z.of_nat n.
Proof.
  unfold sum_rows. intros H.
  assert (G : forall acc : list F, zlen acc = Z.of_nat n -> zlen (fold_left (map2 fadd) rows acc) = Z.of_nat n).
  { induction rows as [| r rows IH]; intros acc Ha; [exact Ha |]. cbn [fold_left].
    apply IH; [intros; apply H; now right |]. rewrite zlen_map2, Ha, H by now left. lia. }
  apply G. unfold zlen. now rewrite repeat_length.
Qed.

Lemma nosum_row {fo : fops} {zo : zoob} {foo : foob fo} X trees row :
  In row (evaluate_forest_nosum X trees) -> zlen row = zlen X.
Proof.
  unfold evaluate_forest_nosum, traverse_forest. rewrite map_map. intros H.
  induction trees as [| t ts IH]; [destruct H |]. cbn [map map2 In] in H. destruct H as [<- | H]; [| auto].
  now rewrite !zlen_map.
Qed.

Section Props.
  Context {ex : external} {zo : zoob} {foo : foob rops} {g : rng rops}.

  (** The state of the chain at the saved iteration [j] of a fit *)
  Definition saved_state (a : gbart_args) (j : nat) : @bart rops :=
    chain (init_of (fst (prepare a))) (seed a) (Z.to_nat (nskip a) + (j + 1) * Z.to_nat (keepevery a)).

  Lemma fit_spec a : 0 <= nskip a -> 0 <= ndpost a -> 0 <= keepevery a ->
    let r := fst (fit a) in
    trace_forests (g_main_trace r) = map (fun j => forest (saved_state a j)) (seq 0 (Z.to_nat (ndpost a))) /\
    X (g_state r) = i_X (fst (prepare a)) /\
    g_num_covar r = zlen (x_train a) /\
    snd (prepare a) = (g_offset r, g_scale r, g_lamda r, g_sigest r, g_splits r) /\
    g_sigma r = map (fun j => g_scale r * sqrt (sigma2 (saved_state a j) : @F rops))%R (seq 0 (Z.to_nat (ndpost a))) /\
    g_first_sigma r = map (fun j => g_scale r * sqrt (sigma2 (chain (init_of (fst (prepare a))) (seed a) (j + 1)) : @F rops))%R
                        (seq 0 (Z.to_nat (nskip a))).
  Proof.
    intros H1 H2 H3. unfold fit, saved_state. destruct (prepare a) as [s [[[[offset scale] lamda] sigest] splits]].
    pose proof (C31_schedule _ (make_simple_print_callback (printevery a)) (nskip a) (ndpost a) (keepevery a)
      (init_of s) (seed a) H1 H2 H3) as R.
    destruct (run_mcmc _ _ _ _ _ _) as [[[final bt] mt] log]. destruct R as (-> & BT & MT).
    cbn [fst snd g_main_trace g_state g_num_covar g_offset g_scale g_lamda g_sigest g_splits g_sigma g_first_sigma].
    split; [| split; [| split; [| split; [| split]]]]; auto.
    - rewrite (trace_forests_spec mt _ (fun field Hf => MT field (or_introl Hf))). now rewrite map_map.
    - now rewrite chain_X.
    - rewrite (extract_sigma_spec mt _ scale
        (fun field Hf => MT field (or_introl (in_or_app documented_burnin _ field (or_introl Hf))))).
      now rewrite map_map.
    - rewrite (extract_sigma_spec bt _ scale (fun field Hf => BT field (or_introl Hf))). now rewrite map_map.
  Qed.

  (** C28. Predictions at the training points are exactly yhat_train. *)
  Theorem C28_predict_train : forall a, args_ok a ->
    predict (fst (fit a)) (x_train a) = Some (yhat_train (fst (fit a))).
  Proof.
    intros a OK. destruct (fit_spec a (go_nskip a OK) (go_ndpost a OK) (go_keepevery a OK)) as (_ & EX & EN & ES & _).
    destruct (prepare_settings a OK) as (PX & _ & _ & _ & _ & _ & _ & _ & _ & _ & (o & sc & la & se & PS)).
    unfold predict, yhat_train. rewrite EN, Z.eqb_refl, EX, PX. rewrite PS in ES. cbn [snd] in ES.
    injection ES as _ _ _ _ <-. reflexivity.
  Qed.

  (** C28. Predictions are sums of trees whose decision nodes compare a raw
      predictor with a cutpoint: x > cutpoint goes right. *)
  Theorem C28_thresholds : forall {rl : rlaws g} a x_test m, args_ok a -> nonempty_leaves a ->
    length x_test = length (x_train a) -> (forall row, In row x_test -> zlen row = m) ->
    let r := fst (fit a) in
    predict r x_test =
    Some (map (fun j =>
           map (fun i => (g_offset r + g_scale r *
                  rsum (map (fun t => raw_eval (g_splits r) (tree_of 0%R (maxdepth a) t) (point 0%R x_test i))
                         (forest (saved_state a j))))%R)
             (seq 0 (Z.to_nat m)))
         (seq 0 (Z.to_nat (ndpost a)))).
  Proof.
    intros rl a x m OK NL HL HR. cbv zeta.
    destruct (fit_spec a (go_nskip a OK) (go_ndpost a OK) (go_keepevery a OK)) as (EF & EX & EN & ES & _).
    pose proof (prepare_ok a OK) as SOK.
    pose proof (train_in_range a OK) as TR. pose proof (train_width a OK) as TW.
    destruct (prepare_settings a OK) as (PX & PM & _ & _ & PD & PMP & _ & _ & _ & _ & (o & sc & la & se & PS)).
    destruct (splits_rows a OK) as (L1 & L2 & SR).
    set (splits := fst (fst (determine_splits (x_train a) (usequants a) (numcut a)))) in *.
    set (ms := snd (fst (determine_splits (x_train a) (usequants a) (numcut a)))) in *.
    assert (ESP : g_splits (fst (fit a)) = splits).
    { rewrite PS in ES. cbn [snd] in ES. now injection ES as _ _ _ _ <-. }
    destruct (bin_columns_spec a OK x m HL HR) as [BL BC].
    fold splits in BL, BC.
    unfold predict. rewrite EN. unfold zlen at 1 2. rewrite HL, Z.eqb_refl, ESP.
    f_equal. unfold transform_output, predict_binned. rewrite EF. unfold evaluate_trace. rewrite !map_map.
    apply map_ext. intros j.
    assert (R : reached (fst (prepare a)) (saved_state a j)) by apply chain_reached.
    assert (WF : Forall (tree_arrays (maxdepth a)) (forest (saved_state a j))).
    { apply Forall_forall. intros t Ht. apply in_map_iff in Ht as (t0 & <- & Ht0).
      destruct (C05_forest_well_formed _ _ SOK R) as [_ W]. destruct (W t0 Ht0) as (W1 & W2 & W3 & _).
      unfold depth_of in *. rewrite PD in *. replace (maxdepth a - 1 + 1) with (maxdepth a) in * by lia.
      split; [exact W1 |]. split; [exact W2 | exact W3]. }
    change (sum_rows (fo := rops) (length (bin_columns x splits)) (evaluate_forest_nosum (fo := rops) (bin_columns x splits) (forest (saved_state a j))))
      with (evaluate_forest (fo := rops) (bin_columns x splits) (forest (saved_state a j))).
    rewrite (C01_evaluate_sum (fo := rops) (maxdepth a)); [| pose proof (go_depth a OK); lia | exact WF].
    rewrite map_map.
    assert (EB : bin_columns x splits = map (fun i => nth i (bin_columns x splits) []) (seq 0 (Z.to_nat m))).
    { replace (Z.to_nat m) with (length (bin_columns x splits)) by (unfold zlen in BL; lia).
      symmetry. apply list_nth_seq. }
    rewrite EB at 1. rewrite map_map. apply map_ext_in. intros i Hi. apply in_seq in Hi.
    f_equal. f_equal. unfold rsum.
    change (@fadd rops) with Rplus. change (@f0 rops) with 0%R.
    match goal with |- fold_left _ ?u _ = fold_left _ ?v _ => assert (E : u = v); [| now rewrite E] end.
    apply map_ext_in. intros t Ht. apply in_map_iff in Ht as (t0 & <- & Ht0).
    unfold tree_of. cbn [fst snd].
    destruct (BC i ltac:(lia)) as [BW BB].
    apply raw_tree; [| | lia].
    - intros v Hv. unfold zlen in Hv. rewrite L1 in Hv. split; [unfold zlen; rewrite BW; lia |].
      destruct (nth_error (x_train a) (Z.to_nat v)) as [row |] eqn:Et; [| apply nth_error_None in Et; lia].
      destruct (SR _ row Et) as (s & mm & E1 & E2 & ND & _).
      destruct (nth_error x (Z.to_nat v)) as [rt |] eqn:Ext; [| apply nth_error_None in Ext; lia].
      rewrite (nth_error_nth _ _ [] E1). split; [exact ND |].
      specialize (BB _ s rt E1 Ext).
      unfold point. rewrite (nth_indep _ 0%R (nth i [] 0%R)) by (rewrite map_length; lia).
      rewrite (map_nth (fun row => nth i row 0%R)). rewrite (nth_error_nth _ _ [] Ext). exact BB.
    - intros q D.
      assert (MP : exists mp, i_min_points (fst (prepare a)) = Some mp /\ 1 <= mp).
      { rewrite PMP. destruct NL as [-> | (mp & -> & Hmp)]; [exists 5; split; [reflexivity | lia] | exists mp; auto]. }
      destruct MP as (mp & MP & Hmp).
      destruct (C10_rules_valid _ _ t0 mp SOK R Ht0 MP Hmp TW TR q D) as (V1 & V2 & _).
      rewrite PM in V1, V2. unfold zlen in V1. rewrite L2 in V1. unfold zlen at 1. rewrite L1. split; [lia |].
      destruct (nth_error (x_train a) (Z.to_nat (entry (t_var t0) q))) as [row |] eqn:Et; [| apply nth_error_None in Et; lia].
      destruct (SR _ row Et) as (s & mm & E1 & E2 & _ & M & _).
      rewrite (nth_error_nth _ _ [] E1). unfold entry at 3 in V2.
      fold ms in V2. rewrite (nth_error_nth _ _ 0 E2) in V2. lia.
  Qed.

  (** C28. Predictions at two points are equal if the points compare in the same
      way with all the cutpoints. *)
  Theorem C28_only_comparisons : forall splits t x x',
    (forall v c, In (Some c) (nth v splits []) -> (c < nth v x 0 <-> c < nth v x' 0)%R) ->
    raw_eval splits t x = raw_eval splits t x'.
  Proof.
    intros splits t x x' H. induction t as [| v s l IHl r IHr]; [reflexivity |]. cbn [raw_eval].
    match goal with |- context [nth ?i ?r ?d] => destruct (nth i r d) as [c |] eqn:E end; [| exact IHl].
    assert (HI : In (Some c) (nth (Z.to_nat v) splits [])).
    { destruct (Nat.lt_ge_cases (Z.to_nat (s - 1)) (length (nth (Z.to_nat v) splits []))) as [L | L].
      - rewrite <- E. apply nth_In. exact L.
      - rewrite nth_overflow in E by exact L. discriminate. }
    specialize (H _ _ HI). rewrite IHl, IHr.
    destruct (Rlt_dec c (nth (Z.to_nat v) x 0%R)), (Rlt_dec c (nth (Z.to_nat v) x' 0%R)); auto; tauto.
  Qed.

  (** C36. Replacing the response with a + b y (and the settings that are in the
      units of the response accordingly) leaves the chain the same and changes
      the results in the obvious way. *)
  Theorem C36_affine : forall {EX : external_ok ex} (a b : R) (s : gbart_args), (0 < b)%R ->
    2 <= zlen (y_train s) -> (exists u v, In u (y_train s) /\ In v (y_train s) /\ u <> v) -> a_k s <> 0%R ->
    0 <= nskip s -> 0 <= ndpost s -> 0 <= keepevery s ->
    let (r, log) := fit s in
    let (r', log') := fit (affine a b s) in
    log' = log /\ g_main_trace r' = g_main_trace r /\ g_state r' = g_state r /\ g_splits r' = g_splits r /\
    g_offset r' = (a + b * g_offset r)%R /\
    g_scale r' = (b * g_scale r)%R /\
    g_lamda r' = (b * b * g_lamda r)%R /\
    g_sigest r' = option_map (fun v => b * v)%R (g_sigest r) /\
    g_sigma r' = map (fun v => b * v)%R (g_sigma r) /\
    g_first_sigma r' = map (fun v => b * v)%R (g_first_sigma r) /\
    yhat_train r' = map (map (fun v => a + b * v)%R) (yhat_train r) /\
    forall x, predict r' x = option_map (map (map (fun v => a + b * v)%R)) (predict r x).
  Proof.
    intros EX a b s Hb H2 NC Hk Hs1 Hs2 Hs3.
    unfold fit. rewrite (prepare_affine a b Hb s H2 NC Hk).
    destruct (prepare s) as [st [[[[offset scale] lamda] sigest] splits]].
    change (printevery (affine a b s)) with (printevery s). change (nskip (affine a b s)) with (nskip s).
    change (ndpost (affine a b s)) with (ndpost s). change (keepevery (affine a b s)) with (keepevery s).
    change (seed (affine a b s)) with (seed s). change (x_train (affine a b s)) with (x_train s).
    destruct (run_mcmc _ _ _ _ _ _) as [[[final bt] mt] log].
    cbn [g_main_trace g_state g_splits g_offset g_scale g_lamda g_sigest g_sigma g_first_sigma].
    assert (T : forall y o sc, transform_output y (a + b * o) (b * sc) =
      map (map (fun v => a + b * v)%R) (transform_output y o sc)).
    { intros y o sc. unfold transform_output. rewrite map_map. apply map_ext. intros row.
      rewrite map_map. apply map_ext. intros v. ring. }
    assert (SG : forall tr sc, extract_sigma tr (b * sc) = map (fun v => b * v)%R (extract_sigma tr sc)).
    { intros tr sc. unfold extract_sigma. destruct (lookup tr "sigma2"); [| reflexivity].
      rewrite map_map. apply map_ext. intros []; ring. }
    do 8 (split; [reflexivity |]). split; [apply SG |]. split; [apply SG |]. split.
    - unfold yhat_train. cbn [g_main_trace g_state g_offset g_scale]. apply T.
    - intros x. unfold predict. cbn [g_num_covar g_splits g_main_trace g_offset g_scale].
      destruct (_ =? _); [| reflexivity]. cbn [option_map]. f_equal. apply T.
  Qed.

  (** C47. One row of predictions for each saved iteration, one column for each
      datapoint, one standard deviation for each saved iteration. *)
  Theorem C47_shapes : forall a, args_ok a ->
    let r := fst (fit a) in
    zlen (yhat_train r) = ndpost a /\ (forall row, In row (yhat_train r) -> zlen row = zlen (y_train a)) /\
    zlen (g_sigma r) = ndpost a /\ zlen (g_first_sigma r) = nskip a.
  Proof.
    intros a OK. cbv zeta.
    destruct (fit_spec a (go_nskip a OK) (go_ndpost a OK) (go_keepevery a OK)) as (EF & EX & _ & _ & ES & EB).
    pose proof (go_ndpost a OK). pose proof (go_nskip a OK).
    split; [| split; [| split]].
    - unfold yhat_train, transform_output, predict_binned, evaluate_trace. rewrite EF, !zlen_map.
      unfold zlen. rewrite seq_length. lia.
    - intros row Hr. unfold yhat_train, transform_output, predict_binned, evaluate_trace in Hr.
      rewrite EF, EX, !map_map in Hr. apply in_map_iff in Hr as (j & <- & _). rewrite zlen_map.
      destruct (prepare_settings a OK) as (PX & _). rewrite PX.
      etransitivity; [apply (zlen_sum_rows (fo := rops)) |]; swap 1 2.
      + apply (bin_columns_spec a OK (x_train a) (zlen (y_train a)) eq_refl (go_rows a OK)).
      + intros row Hr. exact (nosum_row (fo := rops) _ _ _ Hr).
    - rewrite ES, zlen_map. unfold zlen. rewrite seq_length. lia.
    - rewrite EB, zlen_map. unfold zlen. rewrite seq_length. lia.
  Qed.

  Lemma prepare_y a : i_y (fst (prepare a)) = transform_input (y_train a)
    (fst (fst (fst (fst (snd (prepare a)))))) (snd (fst (fst (fst (snd (prepare a)))))).
  Proof.
    unfold prepare. destruct (process_noise_variance _ _ _ _ _ _ _). destruct (determine_splits _ _ _) as [[? ?] ?].
    reflexivity.
  Qed.

  (** C47. In each saved iteration the response is the prediction plus the
      residuals of the state, in the units of the response. *)
  Theorem C47_residuals : forall {rl : rlaws g} a j, args_ok a -> g_scale (fst (fit a)) <> 0%R ->
    (j < Z.to_nat (ndpost a))%nat ->
    nth j (yhat_train (fst (fit a))) [] =
    map2 (fun y r => y - g_scale (fst (fit a)) * r)%R (y_train a) (resid (saved_state a j)).
  Proof.
    intros rl a j OK HS Hj.
    destruct (fit_spec a (go_nskip a OK) (go_ndpost a OK) (go_keepevery a OK)) as (EF & EX & _ & ES & _).
    assert (R : reached (fst (prepare a)) (saved_state a j)) by apply chain_reached.
    destruct (C07_residuals _ _ (prepare_ok a OK) R) as [-> _].
    unfold yhat_train, transform_output, predict_binned, evaluate_trace. rewrite EF, EX, !map_map.
    rewrite nth_map_seq by exact Hj. fold (forest (saved_state a j)).
    change (sum_rows (fo := rops) (length (i_X (fst (prepare a)))) (evaluate_forest_nosum (fo := rops) (i_X (fst (prepare a))) (forest (saved_state a j))))
      with (evaluate_forest (fo := rops) (i_X (fst (prepare a))) (forest (saved_state a j))).
    destruct (prepare_settings a OK) as (PX & _).
    assert (L : zlen (evaluate_forest (fo := rops) (i_X (fst (prepare a))) (forest (saved_state a j))) = zlen (y_train a)).
    { unfold evaluate_forest.
      etransitivity; [apply (zlen_sum_rows (fo := rops)) |]; swap 1 2.
      - rewrite PX. apply (bin_columns_spec a OK (x_train a) (zlen (y_train a)) eq_refl (go_rows a OK)).
      - intros row Hr. exact (nosum_row (fo := rops) _ _ _ Hr). }
    rewrite (prepare_y a). rewrite ES. cbn [fst snd].
    revert L. generalize (evaluate_forest (fo := rops) (i_X (fst (prepare a))) (forest (saved_state a j))).
    unfold transform_input. cbn [F rops].
    induction (y_train a) as [| y ys IH]; intros [| v vs] L; unfold zlen in L; cbn [length] in L; try lia; [reflexivity |].
    cbn [map map2]. f_equal; [| apply IH; unfold zlen; lia]. field. exact HS.
  Qed.

  Lemma chain_reached_real {rg : real_rng g} st k n : reached_real st (chain (init_of st) k n).
  Proof. induction n; cbn [chain]; [apply rreached_init | now apply rreached_step]. Qed.

  (** C47. The standard deviations are positive. *)
  Theorem C47_sigma_positive : forall {rg : real_rng g} a, args_ok a ->
    (zlen (y_train a) = 1 \/ exists u v, In u (y_train a) /\ In v (y_train a) /\ u <> v) ->
    (0 < a_k a)%R -> (0 < sigdf a)%R -> (0 < g_lamda (fst (fit a)))%R ->
    forall s, In s (g_sigma (fst (fit a)) ++ g_first_sigma (fst (fit a))) -> (0 < s)%R.
  Proof.
    intros rg a OK Hy Hk Hd Hl s Hs.
    destruct (fit_spec a (go_nskip a OK) (go_ndpost a OK) (go_keepevery a OK)) as (_ & _ & _ & ES & E1 & E2).
    assert (SC : (0 < g_scale (fst (fit a)))%R).
    { replace (g_scale (fst (fit a))) with (process_scale (y_train a) (a_k a)).
      - unfold process_scale. destruct (Z.ltb_spec (zlen (y_train a)) 2) as [L | L]; [lra |].
        destruct Hy as [Hy | (u & v & Hu & Hv & N)]; [lia |].
        assert (NE : y_train a <> []) by (intros E; rewrite E, zlen_nil in L; lia).
        destruct (rmin_extreme _ NE) as [_ P2], (rmax_extreme _ NE) as [_ P4].
        pose proof (P2 u Hu). pose proof (P2 v Hv). pose proof (P4 u Hu). pose proof (P4 v Hv).
        apply Rdiv_lt_0_compat; lra.
      - apply (f_equal (fun x => snd (fst (fst (fst x))))) in ES. cbn [fst snd] in ES. rewrite <- ES.
        unfold prepare. destruct (process_noise_variance _ _ _ _ _ _ _). destruct (determine_splits _ _ _) as [[? ?] ?].
        reflexivity. }
    assert (AB : (0 < i_sigma2_alpha (fst (prepare a)) /\ 0 < i_sigma2_beta (fst (prepare a)))%R).
    { apply (f_equal (fun x => (snd (fst (fst (fst x))), snd (fst (fst x))))) in ES. cbn [fst snd] in ES.
      revert ES. unfold prepare. destruct (process_noise_variance _ _ _ _ _ _ _) as [la se].
      destruct (determine_splits _ _ _) as [[? ?] ?]. cbn [fst snd].
      intros ES. injection ES as E3 E4. rewrite <- E3 in SC. rewrite <- E4 in Hl.
      unfold setup_mcmc. cbn [i_sigma2_alpha i_sigma2_beta]. split; [lra |].
      apply Rmult_lt_0_compat; [| lra]. apply Rdiv_lt_0_compat; [exact Hl |]. now apply Rmult_lt_0_compat. }
    rewrite E1, E2 in Hs. rewrite in_app_iff, !in_map_iff in Hs.
    destruct Hs as [(j & <- & _) | (j & <- & _)]; (apply Rmult_lt_0_compat; [exact SC |]; apply sqrt_lt_R0;
      eapply C16_positive; [exact (prepare_ok a OK) | apply chain_reached_real | apply AB | apply AB]).
  Qed.

End Props.
Print Assumptions C28_predict_train.
Print Assumptions C28_thresholds.
Print Assumptions C28_only_comparisons.
Print Assumptions C36_affine.
Print Assumptions C47_shapes.
Print Assumptions C47_residuals.
Print Assumptions C47_sigma_positive.

(** ** The hypotheses are met *)

Lemma rss_nonneg A y coef : (0 <= rss A y coef)%R.
Proof.
  unfold rss. revert y. induction A as [| r A IH]; intros [| v y]; cbn [map2 fold_right]; try lra.
  specialize (IH y). match goal with |- (0 <= ?q * ?q + _)%R => pose proof (Rle_0_sqr q) as Q; unfold Rsqr in Q end. lra.
Qed.

(** The infimum of the sum of squared residuals *)
Lemma rss_inf A y : {m : R | is_lub (fun v => forall coef, (v <= rss A y coef)%R) m}.
Proof.
  apply completeness.
  - exists (rss A y []). intros v H. apply H.
  - exists 0%R. intros coef. apply rss_nonneg.
Qed.

Definition ex_external : external := {|
  lstsq := fun A y => (proj1_sig (rss_inf A y), zlen (hd [] A));
  gammainccinv := fun a q => (- ln q)%R
|}.

Example ex_external_ok : external_ok ex_external.
Proof.
  constructor; cbn [lstsq ex_external fst snd]; intros.
  - destruct (rss_inf A y) as [m [H0 H]]. cbn [proj1_sig]. apply H. intros v Hv. apply Hv.
  - destruct (rss_inf A y) as [m [H0 H1]]. cbn [proj1_sig]. apply H0. assumption.
  - reflexivity.
Qed.

(** Two predictors, six points, all the optional settings left out *)
Definition ex_args (usequants : bool) : gbart_args := {|
  x_train := [map IZR [0; 1; 2; 3; 4; 5]; map IZR [2; 0; 2; 1; 0; 7]];
  y_train := map IZR [3; -1; 4; -2; 5; -6];
  usequants := usequants; a_sigest := None; sigdf := 3; sigquant := 9 / 10; a_k := 2; power := 2;
  base := 95 / 100; maxdepth := 6; a_lamda := None; a_offset := None; ntree := 200; numcut := 100;
  ndpost := 1000; nskip := 100; keepevery := 1; printevery := 100; seed := KRoot 0;
  initkw := mkinitkw None None None false
|}.

Example ex_args_ok q : args_ok (ex_args q).
Proof.
  constructor; cbn [ex_args x_train y_train numcut maxdepth base ndpost nskip keepevery initkw
    kw_resid_batch kw_count_batch]; try lia; try discriminate.
  - unfold zlen; cbn [length map]; lia.
  - intros row [<- | [<- | []]]; reflexivity.
  - unfold zlen; cbn [length map]; lia.
  - lra.
  - left. left. reflexivity.
Qed.

Example ex_args_leaves q : nonempty_leaves (ex_args q).
Proof. now left. Qed.

Example ex_args_test : length [[1 / 2]; [3]]%R = length (x_train (ex_args true)) /\
  forall row, In row [[1 / 2]; [3]]%R -> zlen row = 1.
Proof. split; [reflexivity |]. intros row [<- | [<- | []]]; reflexivity. Qed.

Example ex_args_nonconstant q : 2 <= zlen (y_train (ex_args q)) /\
  (exists u v, In u (y_train (ex_args q)) /\ In v (y_train (ex_args q)) /\ u <> v) /\ a_k (ex_args q) <> 0%R /\
  (0 < a_k (ex_args q))%R /\ (0 < sigdf (ex_args q))%R.
Proof.
  cbn [ex_args y_train a_k sigdf map]. split; [unfold zlen; cbn [length]; lia |]. split; [| split; [lra | split; lra]].
  exists 3%R, (-1)%R. split; [left; reflexivity |]. split; [right; left; reflexivity | lra].
Qed.

(** C28_only_comparisons: a stump at 5/2 does not tell apart 2 from 1, and
    does tell apart 2 from 3. *)
Example ex_stump : forall f,
  f = (fun x => raw_eval [[Some (5 / 2)%R]] (DNode 0 1 (DLeaf 10%R) (DLeaf 20%R)) [x]) ->
  f 2%R = f 1%R /\ f 2%R <> f 3%R.
Proof.
  intros f ->. split.
  - apply C28_only_comparisons. intros [| [| v]] c H; cbn in H; [| now destruct H | now destruct v].
    destruct H as [H | []]. injection H as <-. cbn [nth]. split; intros; lra.
  - change ((if Rlt_dec (5 / 2) 2 then 20 else 10) <> (if Rlt_dec (5 / 2) 3 then 20 else 10))%R.
    destruct (Rlt_dec (5 / 2) 2), (Rlt_dec (5 / 2) 3); lra.
Qed.
