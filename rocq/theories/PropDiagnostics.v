(** The methods of [gbart] for debugging (C52). *)
From Coq Require Import String ZArith List Bool Reals Lia Lra.
From Verif Require Import Base LemBase Laws SpecExact ModelJaxext ModelGrove ModelStep ModelLoop ModelPrep ModelDebug ModelBART
  ModelInterface SpecTree SpecForest SpecRun SpecLoop SpecPrep SpecBART SpecPrior SpecDebug SpecInterface ProofGamma ProofRun ProofTree ProofExact
  ProofDebug ProofPrep ProofBART PropLoop PropTypes PropForest PropExact PropDebug PropBART PropPrior PropInterface ExampleReal.
Import ListNotations.
Open Scope Z_scope.

Definition zsum (l : list Z) : Z := fold_right Z.add 0 l.

Lemma zsum_fold l : fold_left Z.add l 0 = zsum l.
Proof. unfold zsum. apply fold_symmetric; intros; lia. Qed.

Lemma zsum_le {A} (f h : A -> Z) l : (forall x, In x l -> 0 <= f x <= h x) -> 0 <= zsum (map f l) <= zsum (map h l).
Proof.
  unfold zsum. induction l as [| x l IH]; cbn [map fold_right]; [lia |]. intros H.
  pose proof (H x (or_introl eq_refl)). specialize (IH (fun y Hy => H y (or_intror Hy))). lia.
Qed.

(** ** Leaves *)

(** Below a reachable node there is a leaf. *)
Lemma leaf_below sp : forall fuel i, (Z.to_nat (zlen sp - i) <= fuel)%nat -> reachable sp i ->
  exists j b, leaf_node sp j /\ 0 <= b /\ j / 2 ^ b = i.
Proof.
  induction fuel as [| fuel IH]; intros i Hf R.
  - exists i, 0. split; [split; [exact R |] |].
    + intros [D1 D2]. unfold entry in D2. rewrite nth_overflow in D2; [congruence |]. unfold zlen in Hf. lia.
    + split; [lia |]. now rewrite Z.pow_0_r, Z.div_1_r.
  - destruct (Z.eq_dec (entry sp i) 0) as [E | E].
    + exists i, 0. split; [split; [exact R |] |]; [intros [_ D]; congruence |]. split; [lia |].
      now rewrite Z.pow_0_r, Z.div_1_r.
    + pose proof (reachable_pos _ _ R) as P.
      assert (D : decision sp i) by (split; auto).
      destruct (Z.le_gt_cases (zlen sp) i) as [G | G].
      { exfalso. apply E. unfold entry. apply nth_overflow. unfold zlen in G. lia. }
      destruct (IH (2 * i)) as (j & b & Lj & Hb & Ej); [lia | now constructor |].
      exists j, (b + 1). split; [exact Lj |]. split; [lia |].
      rewrite Z.pow_add_r, <- Z.div_div by (try lia; apply Z.pow_pos_nonneg; lia). rewrite Ej.
      change (2 ^ 1) with 2. rewrite Z.mul_comm. apply Z.div_mul. lia.
Qed.

(** A leaf that is not the root is not the only leaf. *)
Lemma another_leaf sp i : leaf_node sp i -> i <> 1 -> exists j, leaf_node sp j /\ j <> i.
Proof.
  intros [R ND] NE.
  assert (S : exists s, reachable sp s /\ i - 1 <= s <= i + 1 /\ s <> i /\ s / 2 = i / 2).
  { inversion R as [| i' R' D' | i' R' D']; subst; [congruence | |].
    - exists (2 * i' + 1). split; [now constructor |]. split; [lia |]. split; [lia |].
      replace (2 * i' + 1) with (1 + i' * 2) by lia. rewrite Z.div_add by lia.
      replace (2 * i') with (i' * 2) by lia. rewrite Z.div_mul by lia. reflexivity.
    - exists (2 * i'). split; [now constructor |]. split; [lia |]. split; [lia |].
      replace (2 * i' + 1) with (1 + i' * 2) by lia. rewrite Z.div_add by lia.
      replace (2 * i') with (i' * 2) by lia. rewrite Z.div_mul by lia. reflexivity. }
  destruct S as (s & RS & B & NS & ES). pose proof (reachable_pos _ _ RS) as PS. pose proof (reachable_pos _ _ R) as PI.
  destruct (leaf_below sp (Z.to_nat (zlen sp - s)) s ltac:(lia) RS) as (j & b & Lj & Hb & Ej).
  exists j. split; [exact Lj |]. intros ->.
  destruct (Z.eq_dec b 0) as [-> | NB]; [rewrite Z.pow_0_r, Z.div_1_r in Ej; congruence |].
  assert (LE : i / 2 ^ b <= i / 2).
  { apply Z.div_le_compat_l; [lia |]. split; [lia |]. change 2 with (2 ^ 1) at 1. apply Z.pow_le_mono_r; lia. }
  rewrite Ej, <- ES in LE. pose proof (Z.div_lt s 2 ltac:(lia) ltac:(lia)). lia.
Qed.

(** Points in two different nodes *)
Lemma points_in_two d points var sp i j : i <> j ->
  points_in d points var sp i + points_in d points var sp j <= zlen points.
Proof.
  intros NE. unfold points_in, zlen. induction points as [| x l IH]; [cbn; lia |]. cbn [filter length].
  destruct (Z.eqb_spec (leaf_of (Z.to_nat d - 1) x var sp 1) i), (Z.eqb_spec (leaf_of (Z.to_nat d - 1) x var sp 1) j);
    cbn [length]; lia.
Qed.

Lemma points_in_root d points var sp : ~ decision sp 1 -> points_in d points var sp 1 = zlen points.
Proof.
  intros ND. unfold points_in, zlen. induction points as [| x l IH]; [reflexivity |]. cbn [filter].
  assert (E : leaf_of (Z.to_nat d - 1) x var sp 1 = 1).
  { destruct (Z.to_nat d - 1)%nat; cbn [leaf_of]; [reflexivity |].
    destruct (Z.eqb_spec (entry sp 1) 0); [reflexivity |]. exfalso. apply ND. split; [lia | assumption]. }
  rewrite E, Z.eqb_refl. cbn [length]. lia.
Qed.

(** ** Residuals *)
Lemma residual_squares c : forall (y e : list R), zlen e = zlen y ->
  fold_right Rplus 0%R (map2 (fun y f => (y - f) * (y - f))%R y (map2 (fun y e => y - c * e)%R y e)) =
  (c * c * rsum (map2 Rmult e e))%R.
Proof.
  intros y e L. rewrite rsum_fold. revert e L.
  induction y as [| v y IH]; intros [| e es] L; unfold zlen in L; cbn [length] in L; try lia.
  - cbn [map2 fold_right]. ring.
  - cbn [map2 fold_right]. rewrite (IH es) by (unfold zlen; lia). ring.
Qed.

(** ** First appearances *)

(** C52. [_tree_goes_bad]: a tree is marked at an iteration if it has an error
    there and had none at the previous iteration. *)
Theorem C52_goes_bad : forall errors ntree i j,
  (forall row, In row errors -> length row = ntree) -> (i < length errors)%nat -> (j < ntree)%nat ->
  let error i := nth j (nth i errors []) 0 in
  nth j (nth i (goes_bad errors) []) false = true <->
  error i <> 0 /\ match i with O => True | S i' => error i' = 0 end.
Proof.
  intros errors ntree i j HR Hi Hj error. unfold goes_bad.
  set (bad := map (map (fun e => negb (e =? 0))) errors).
  set (before := map (fun _ => false) (hd [] bad) :: removelast bad).
  assert (LB : length bad = length errors) by (unfold bad; apply map_length).
  assert (BN : forall k, (k < length errors)%nat -> nth k bad [] = map (fun e => negb (e =? 0)) (nth k errors [])).
  { intros k Hk. unfold bad. rewrite (nth_indep _ [] (map (fun e => negb (e =? 0)) [])) by (rewrite map_length; exact Hk).
    apply (map_nth (map (fun e => negb (e =? 0)))). }
  assert (BE : forall k, (k < length errors)%nat -> nth j (nth k bad []) false = negb (error k =? 0)).
  { intros k Hk. rewrite BN by exact Hk.
    rewrite (nth_indep _ false ((fun e => negb (e =? 0)) 0)) by (rewrite map_length, (HR (nth k errors [])); [exact Hj | now apply nth_In]).
    apply (map_nth (fun e => negb (e =? 0))). }
  assert (RL : forall k, (S k < length errors)%nat -> nth k (removelast bad) [] = nth k bad []).
  { intros k Hk. assert (NN : bad <> []) by (intros N; rewrite N in LB; cbn in LB; lia).
    pose proof (app_removelast_last (l := bad) [] NN) as AR.
    assert (LR : length bad = S (length (removelast bad))).
    { rewrite AR at 1. rewrite app_length. cbn [length]. lia. }
    rewrite AR at 2. rewrite app_nth1 by lia. reflexivity. }
  assert (M2 : forall (u v : list (list bool)) k, (k < length u)%nat -> (k < length v)%nat ->
    nth k (map2 (map2 (fun b b' => b && negb b')) u v) [] =
    map2 (fun b b' => b && negb b') (nth k u []) (nth k v [])).
  { induction u as [| x u IH]; intros [| y v] k H1 H2; cbn [length] in *; try lia. destruct k; [reflexivity |].
    cbn [map2 nth]. apply IH; lia. }
  assert (M1 : forall (u v : list bool) k, (k < length u)%nat -> (k < length v)%nat ->
    nth k (map2 (fun b b' => b && negb b') u v) false = nth k u false && negb (nth k v false)).
  { induction u as [| x u IH]; intros [| y v] k H1 H2; cbn [length] in *; try lia. destruct k; [reflexivity |].
    cbn [map2 nth]. apply IH; lia. }
  assert (LBF : length before = length errors).
  { unfold before. cbn [length]. assert (NN : bad <> []) by (intros N; rewrite N in LB; cbn in LB; lia).
    rewrite <- LB. rewrite (app_removelast_last (l := bad) [] NN) at 2. rewrite app_length. cbn [length]. lia. }
  assert (LN : forall k, (k < length errors)%nat -> length (nth k bad []) = ntree).
  { intros k Hk. rewrite BN, map_length by exact Hk. apply HR. now apply nth_In. }
  assert (LN' : length (nth i before []) = ntree).
  { unfold before. destruct i; cbn [nth]; [| rewrite RL by lia; apply LN; lia]. rewrite map_length.
    destruct bad as [| x u] eqn:EB; [cbn in LB; lia |]. cbn [hd]. specialize (LN 0%nat ltac:(lia)). exact LN. }
  rewrite M2 by lia. rewrite M1 by (rewrite ?LN, ?LN'; lia). rewrite BE by lia.
  rewrite andb_true_iff, !negb_true_iff, Z.eqb_neq.
  assert (E : nth j (nth i before []) false = false <-> match i with O => True | S i' => error i' = 0 end).
  { unfold before. destruct i as [| i'].
    - cbn [nth]. split; [trivial |]. intros _. generalize (hd [] bad). clear. intros l. revert j.
      induction l as [| x l IH]; intros [| j]; cbn [map nth]; auto.
    - cbn [nth]. rewrite RL, BE by lia. rewrite negb_false_iff, Z.eqb_eq. reflexivity. }
  rewrite E. reflexivity.
Qed.
Print Assumptions C52_goes_bad.

Section Props.
  Context {ex : external} {zo : zoob} {foo : foob rops} {g : rng rops} {rl : rlaws g}.
  Variable a : gbart_args.
  Hypothesis OK : args_ok a.
  Let r : gbart := fst (fit a).
  Let saved : list nat := seq 0 (Z.to_nat (ndpost a)).

  Lemma fit_traces : (forall field, In field documented_main ->
    traces (g_main_trace r) field (map (saved_state a) saved)) /\
    g_state r = chain (init_of (fst (prepare a))) (seed a) (Z.to_nat (nskip a + ndpost a * keepevery a)).
  Proof.
    pose proof (go_nskip a OK) as H1. pose proof (go_ndpost a OK) as H2. pose proof (go_keepevery a OK) as H3.
    unfold r, saved, saved_state, fit. destruct (prepare a) as [s [[[[offset scale] lamda] sigest] splits]].
    pose proof (C31_schedule _ (make_simple_print_callback (printevery a)) (nskip a) (ndpost a) (keepevery a)
      (init_of s) (seed a) H1 H2 H3) as R.
    destruct (run_mcmc _ _ _ _ _ _) as [[[final bt] mt] log]. destruct R as (-> & _ & MT).
    cbn [fst snd g_main_trace g_state]. split; [| reflexivity]. intros field Hf. apply MT. now left.
  Qed.

  Lemma trace_sum_spec field h : In field documented_main ->
    (forall b : @bart rops, lookup (state_items b) field = Some (VInt (h b))) ->
    trace_sum (g_main_trace r) field = zsum (map (fun j => h (saved_state a j)) saved).
  Proof.
    intros Hf Hh. unfold trace_sum.
    rewrite (traces_values (g_main_trace r) field _ (fun b => VInt (h b)) (proj1 fit_traces field Hf) Hh).
    rewrite !map_map. apply zsum_fold.
  Qed.

  Lemma saved_counters j : let b := saved_state a j in
    0 <= grow_acc_count b <= grow_prop_count b /\ 0 <= prune_acc_count b <= prune_prop_count b /\
    0 <= grow_prop_count b + prune_prop_count b <= Z.max 0 (ntree a).
  Proof.
    cbv zeta. unfold saved_state. pose proof (prepare_ok a OK) as SOK.
    destruct (prepare_settings a OK) as (_ & _ & _ & _ & _ & _ & _ & _ & EN & _).
    destruct (Z.to_nat (nskip a) + (j + 1) * Z.to_nat (keepevery a))%nat as [| n].
    - cbn [chain]. unfold init_of, init. cbn [grow_acc_count grow_prop_count prune_acc_count prune_prop_count]. lia.
    - cbn [chain]. pose proof (chain_reached (fst (prepare a)) (seed a) n) as R.
      destruct (C12_counters _ _ (KSplit (chain_key (seed a) n) 2 1) SOK R) as (C1 & C2 & C3 & _).
      destruct (C05_forest_well_formed _ _ SOK R) as [EL _]. rewrite EN in EL. lia.
  Qed.

  (** C52. The acceptance rates and the fractions of the proposals, over the saved
      iterations: [grow_acc] etc. are the totals of what the states of the chain
      report. *)
  Theorem C52_rates :
    let total (count : @bart rops -> Z) := zsum (map (fun j => count (saved_state a j)) saved) in
    let grow_acc := total grow_acc_count in let grow_prop := total grow_prop_count in
    let prune_acc := total prune_acc_count in let prune_prop := total prune_prop_count in
    0 <= grow_acc <= grow_prop /\ 0 <= prune_acc <= prune_prop /\
    grow_prop + prune_prop <= ndpost a * Z.max 0 (ntree a) /\
    (0 < grow_prop -> fst (avg_acc r) = (IZR grow_acc / IZR grow_prop)%R /\ (0 <= fst (avg_acc r) <= 1)%R) /\
    (0 < prune_prop -> snd (avg_acc r) = (IZR prune_acc / IZR prune_prop)%R /\ (0 <= snd (avg_acc r) <= 1)%R) /\
    (0 < grow_prop + prune_prop ->
       fst (avg_prop r) = (IZR grow_prop / IZR (grow_prop + prune_prop))%R /\
       snd (avg_prop r) = (IZR prune_prop / IZR (grow_prop + prune_prop))%R /\
       (fst (avg_prop r) + snd (avg_prop r) = 1)%R) /\
    (0 < grow_prop -> 0 < prune_prop ->
       fst (avg_move r) = (IZR grow_acc / IZR (grow_prop + prune_prop))%R /\
       snd (avg_move r) = (IZR prune_acc / IZR (grow_prop + prune_prop))%R).
  Proof.
    intros total ga gp pa pp.
    assert (B1 : 0 <= ga <= gp) by (apply zsum_le; intros j _; apply saved_counters).
    assert (B2 : 0 <= pa <= pp) by (apply zsum_le; intros j _; apply saved_counters).
    assert (B3 : gp + pp <= ndpost a * Z.max 0 (ntree a)).
    { unfold gp, pp, total, saved. pose proof (go_ndpost a OK) as HN.
      transitivity (Z.of_nat (length (seq 0 (Z.to_nat (ndpost a)))) * Z.max 0 (ntree a));
        [| rewrite seq_length, Z2Nat.id by exact HN; lia].
      generalize (seq 0 (Z.to_nat (ndpost a))). intros l. unfold zsum. induction l as [| j l IH]; [cbn; lia |].
      cbn [map fold_right length]. pose proof (saved_counters j) as (_ & _ & H). lia. }
    assert (E1 : trace_sum (g_main_trace r) "grow_acc_count" = ga)
      by (apply (trace_sum_spec _ grow_acc_count); [cbn; tauto | reflexivity]).
    assert (E2 : trace_sum (g_main_trace r) "grow_prop_count" = gp)
      by (apply (trace_sum_spec _ grow_prop_count); [cbn; tauto | reflexivity]).
    assert (E3 : trace_sum (g_main_trace r) "prune_acc_count" = pa)
      by (apply (trace_sum_spec _ prune_acc_count); [cbn; tauto | reflexivity]).
    assert (E4 : trace_sum (g_main_trace r) "prune_prop_count" = pp)
      by (apply (trace_sum_spec _ prune_prop_count); [cbn; tauto | reflexivity]).
    unfold avg_move, avg_prop, avg_acc. rewrite E1, E2, E3, E4. cbn [fst snd]. clearbody ga gp pa pp. clear total E1 E2 E3 E4.
    assert (Q : forall u v, 0 <= u <= v -> 0 < v -> (0 <= IZR u / IZR v <= 1)%R).
    { intros u v Huv Hv. pose proof (IZR_le 0 u ltac:(lia)). pose proof (IZR_le u v ltac:(lia)). pose proof (IZR_lt 0 v ltac:(lia)).
      split; [apply Rmult_le_pos; [lra | left; apply Rinv_0_lt_compat; lra] |].
      apply (Rmult_le_reg_r (IZR v)); [lra |]. unfold Rdiv. rewrite Rmult_assoc, Rinv_l by lra. lra. }
    split; [exact B1 |]. split; [exact B2 |]. split; [exact B3 |]. split; [| split; [| split]].
    - intros H. split; [reflexivity |]. now apply Q.
    - intros H. split; [reflexivity |]. now apply Q.
    - intros H. split; [reflexivity |]. split; [reflexivity |]. apply IZR_lt in H. rewrite plus_IZR in *. field. lra.
    - intros H1 H2. apply IZR_lt in H1, H2. rewrite plus_IZR. split; field; lra.
  Qed.
  Print Assumptions C52_rates.

  (** C52. [_compare_resid] returns twice the same residuals (in exact
      arithmetic). *)
  Theorem C52_compare_resid : fst (compare_resid r) = snd (compare_resid r).
  Proof.
    unfold compare_resid. cbn [fst snd]. pose proof (fit_state_reached a OK) as R. fold r in R.
    destruct (C07_residuals _ _ (prepare_ok a OK) R) as [E _].
    destruct (reached_fields _ _ R) as (-> & -> & _). exact E.
  Qed.
  Print Assumptions C52_compare_resid.

  (** C52. The prior harmonic mean of the noise variance is lamda. *)
  Theorem C52_sigma_prior : (0 < g_scale r)%R -> (0 < sigdf a)%R -> (0 <= g_lamda r)%R ->
    sigma_harmonic_mean r true = sqrt (g_lamda r).
  Proof.
    intros HS HD HL. unfold sigma_harmonic_mean. destruct (fit_state_prior a OK) as (E1 & E2 & _). fold r in E1, E2.
    cbn [F rops] in *. rewrite E1, E2.
    replace (g_lamda r / (g_scale r * g_scale r) * (sigdf a / 2) / (sigdf a / 2))%R
      with (g_lamda r / (g_scale r * g_scale r))%R by (field; lra).
    rewrite sqrt_div_alt by (apply Rmult_lt_0_compat; lra). rewrite sqrt_square by lra. field. lra.
  Qed.
  Print Assumptions C52_sigma_prior.

  (** C52. Otherwise the square of [_sigma_harmonic_mean] is the harmonic mean of
      the distribution of the noise variance given the last saved regression
      function: inverse gamma with shape (sigdf + n) / 2 and scale (sigdf lamda
      + sum of the squared residuals) / 2, in the units of the response. *)
  Theorem C52_sigma_posterior : (0 < g_scale r)%R -> (0 < sigdf a)%R -> (0 < g_lamda r)%R -> 1 <= ndpost a ->
    let fitted := last (yhat_train r) [] in
    let sum_squares := fold_right Rplus 0%R (map2 (fun y f => (y - f) * (y - f))%R (y_train a) fitted) in
    let alpha := ((sigdf a + IZR (zlen (y_train a))) / 2)%R in
    let beta := ((sigdf a * g_lamda r + sum_squares) / 2)%R in
    (0 <= sigma_harmonic_mean r false)%R /\
    is_harmonic_mean (invgamma_density alpha beta) (sigma_harmonic_mean r false ^ 2).
  Proof.
    intros HS HD HL HN fit ss alpha beta.
    assert (EL : g_state r = saved_state a (Z.to_nat (ndpost a) - 1)).
    { rewrite (proj2 fit_traces). unfold saved_state. f_equal. pose proof (go_nskip a OK). pose proof (go_keepevery a OK).
      replace (Z.to_nat (ndpost a) - 1 + 1)%nat with (Z.to_nat (ndpost a)) by lia.
      rewrite <- Z2Nat.inj_mul by lia. rewrite Z2Nat.inj_add by nia. reflexivity. }
    assert (EF : fit = map2 (fun y e => y - g_scale r * e)%R (y_train a) (resid (g_state r))).
    { unfold fit. rewrite EL.
      pose proof (C47_residuals a (Z.to_nat (ndpost a) - 1) OK (Rgt_not_eq _ _ HS) ltac:(lia)) as E. fold r in E. rewrite <- E.
      destruct (C47_shapes a OK) as (SH & _). fold r in SH. unfold zlen in SH.
      assert (NN : yhat_train r <> []) by (intros N; rewrite N in SH; cbn in SH; lia).
      rewrite (app_removelast_last (l := yhat_train r) [] NN) at 2.
      assert (LR : length (removelast (yhat_train r)) = (Z.to_nat (ndpost a) - 1)%nat).
      { rewrite (app_removelast_last (l := yhat_train r) [] NN), app_length in SH. cbn [length] in SH. lia. }
      rewrite app_nth2 by lia. rewrite LR, Nat.sub_diag. reflexivity. }
    pose proof (fit_state_reached a OK) as R. fold r in R.
    assert (LR : zlen (resid (g_state r)) = zlen (y_train a)).
    { pose proof (resid_len _ _ (prepare_ok a OK) R) as L. destruct (reached_fields _ _ R) as (_ & EY & _).
      rewrite EY in L. destruct (prepare_settings a OK) as (_ & _ & _ & PY & _).
      change (zlen (resid (g_state r)) = zlen (i_y (fst (prepare a)))) in L. congruence. }
    assert (ES : ss = (g_scale r * g_scale r * rsum (map2 Rmult (resid (g_state r)) (resid (g_state r))))%R).
    { unfold ss. rewrite EF. apply residual_squares. exact LR. }
    assert (SP : (0 <= rsum (map2 Rmult (resid (g_state r)) (resid (g_state r))))%R).
    { rewrite rsum_fold. generalize (resid (g_state r)). cbn [F rops]. intros l.
      induction l as [| e es IH]; cbn [map2 fold_right]; [lra |]. pose proof (Rle_0_sqr e). unfold Rsqr in *. lra. }
    pose proof (Rmult_lt_0_compat _ _ HS HS) as S2.
    pose proof (Rmult_le_pos _ _ (Rlt_le _ _ S2) SP) as SSP. rewrite <- ES in SSP.
    pose proof (IZR_le 0 (zlen (y_train a)) (zlen_nonneg _ _)) as NP.
    pose proof (Rmult_lt_0_compat _ _ HD HL) as DL.
    assert (AP : (0 < alpha)%R) by (unfold alpha; lra). assert (BP : (0 < beta)%R) by (unfold beta; lra).
    assert (EV : (sigma_harmonic_mean r false ^ 2 = beta / alpha)%R /\ (0 <= sigma_harmonic_mean r false)%R).
    { unfold sigma_harmonic_mean. destruct (fit_state_prior a OK) as (E1 & E2 & _). fold r in E1, E2.
      cbn [F rops] in *. rewrite E1, E2. set (rr := rsum _) in *. rewrite LR.
      set (n := IZR (zlen (y_train a))) in *.
      replace ((g_lamda r / (g_scale r * g_scale r) * (sigdf a / 2) + rr / 2) / (sigdf a / 2 + n / 2))%R
        with (beta / alpha / (g_scale r * g_scale r))%R by (unfold beta, alpha; rewrite ES; field; lra).
      assert (QP : (0 < beta / alpha)%R) by (apply Rdiv_lt_0_compat; assumption).
      rewrite sqrt_div_alt by exact S2. rewrite sqrt_square by lra. split.
      - replace (sqrt (beta / alpha) / g_scale r * g_scale r)%R with (sqrt (beta / alpha)) by (field; lra).
        rewrite pow2_sqrt; lra.
      - apply Rmult_le_pos; [| lra]. apply Rmult_le_pos; [apply sqrt_pos |]. left. apply Rinv_0_lt_compat. exact HS. }
    split; [apply EV |]. rewrite (proj1 EV). now apply invgamma_harmonic.
  Qed.
  Print Assumptions C52_sigma_posterior.

  Lemma saved_reached j : reached (fst (prepare a)) (saved_state a j).
  Proof. unfold saved_state. exact (chain_reached (fst (prepare a)) (seed a) _). Qed.

  Lemma depth_prepare : depth_of (fst (prepare a)) = maxdepth a.
  Proof. unfold depth_of. destruct (prepare_settings a OK) as (_ & _ & _ & _ & PD & _). rewrite PD. lia. Qed.

  Lemma forests_saved : trace_forests (g_main_trace r) = map (fun j => forest (saved_state a j)) saved.
  Proof. apply (fit_spec a (go_nskip a OK) (go_ndpost a OK) (go_keepevery a OK)). Qed.

  Lemma state_data : X (g_state r) = i_X (fst (prepare a)) /\ max_split (g_state r) = i_max_split (fst (prepare a)) /\
    split_bits (g_state r) = i_split_bits (fst (prepare a)).
  Proof.
    pose proof (fit_state_reached a OK) as R. fold r in R.
    destruct (reached_fields _ _ R) as (E1 & _ & E2 & _ & _ & _ & _ & _ & E3 & _). auto.
  Qed.

  (** C52. [_check_trees] finds no error in the saved trees, [_tree_goes_bad]
      marks none. *)
  Theorem C52_no_errors :
    check_trees r = map (fun _ => repeat 0 (Z.to_nat (ntree a))) saved /\
    forall row marked, In row (tree_goes_bad r) -> In marked row -> marked = false.
  Proof.
    assert (E : check_trees r = map (fun _ => repeat 0 (Z.to_nat (ntree a))) saved).
    { unfold check_trees. rewrite C38_check_trace, forests_saved, !map_map. apply map_ext. intros j. unfold forest.
      rewrite !map_map. pose proof (prepare_ok a OK) as SOK. pose proof (saved_reached j) as R.
      destruct state_data as (EX & EM & EB). rewrite EX, EM, EB.
      assert (W : zlen (hd [] (i_X (fst (prepare a)))) = zlen (i_max_split (fst (prepare a)))).
      { apply (train_width a OK). pose proof (ok_n _ SOK) as LN. destruct (prepare_settings a OK) as (_ & _ & _ & PY & _).
        pose proof (go_n a OK). destruct (i_X (fst (prepare a))) as [| c l]; [unfold zlen in *; cbn [length] in *; lia | now left]. }
      rewrite W.
      destruct (C05_forest_well_formed _ _ SOK R) as [LT _].
      destruct (prepare_settings a OK) as (_ & _ & _ & _ & _ & _ & _ & _ & EN & _). rewrite EN in LT.
      assert (NB : narrowest (zlen (i_max_split (fst (prepare a))) - 1)
        (minimal_unsigned_bits (zlen (i_max_split (fst (prepare a))) - 1))).
      { apply minimal_narrowest. pose proof (ok_p _ SOK). lia. }
      replace (Z.to_nat (ntree a)) with (length (trees (saved_state a j))) by (unfold zlen in LT; lia).
      assert (Z0 : forall t, In t (trees (saved_state a j)) ->
        check_tree (fo := rops) (t_leaf t)
          (mktarray (minimal_unsigned_bits (zlen (i_max_split (fst (prepare a))) - 1)) (t_var t))
          (mktarray (i_split_bits (fst (prepare a))) (t_split t))
          (mktarray (i_split_bits (fst (prepare a))) (i_max_split (fst (prepare a)))) = 0)
        by (intros t Ht; exact (C05_check_tree_real _ _ t _ SOK R Ht NB)).
      revert Z0. generalize (trees (saved_state a j)). intros l. induction l as [| t l IH]; intros Z0; [reflexivity |].
      cbn [map length repeat]. f_equal; [apply Z0; now left | apply IH; intros; apply Z0; now right]. }
    split; [exact E |]. intros row marked Hr Hm. unfold tree_goes_bad in Hr. rewrite E in Hr.
    apply In_nth with (d := []) in Hr as (i & Hi & <-). apply In_nth with (d := false) in Hm as (j & Hj & <-).
    set (errors := map (fun _ => repeat 0 (Z.to_nat (ntree a))) saved) in *.
    assert (RW : forall row, In row errors -> row = repeat 0 (Z.to_nat (ntree a))).
    { intros row H. apply in_map_iff in H as (? & <- & _). reflexivity. }
    assert (L2 : forall A B C (f : A -> B -> C) u v, (length (map2 f u v) <= length u)%nat).
    { intros A B C f u. induction u as [| x u IH]; intros [| y v]; cbn [map2 length]; try lia. specialize (IH v). lia. }
    assert (HI : (i < length errors)%nat).
    { unfold goes_bad in Hi. pose proof (L2 _ _ _ (map2 (fun b b' => b && negb b'))
        (map (map (fun e => negb (e =? 0))) errors)
        (map (fun _ => false) (hd [] (map (map (fun e => negb (e =? 0))) errors)) ::
          removelast (map (map (fun e => negb (e =? 0))) errors))) as L. rewrite map_length in L. lia. }
    destruct (Nat.lt_ge_cases j (Z.to_nat (ntree a))) as [HJ | HJ].
    - apply not_true_is_false. intros T.
      apply (C52_goes_bad errors (Z.to_nat (ntree a)) i j) in T as [T _]; auto.
      + apply T. rewrite (RW (nth i errors [])) by now apply nth_In. apply nth_repeat.
      + intros row HW. rewrite (RW row HW). apply repeat_length.
    - exfalso. assert (RL : forall row, In row (goes_bad errors) -> (length row <= Z.to_nat (ntree a))%nat).
      { unfold goes_bad. set (bad := map _ errors). set (before := _ :: _).
        assert (HB : forall row, In row bad -> (length row <= Z.to_nat (ntree a))%nat).
        { intros row H. apply in_map_iff in H as (e & <- & He). rewrite (RW e He), map_length, repeat_length. lia. }
        clearbody before. revert HB. generalize before as w. induction bad as [| x u IH]; intros w HB row H; [destruct H |].
        destruct w as [| y w]; [destruct H |]. cbn [map2] in H. destruct H as [<- | H].
        - etransitivity; [apply L2 |]. apply HB. now left.
        - apply (IH w); auto. intros row' H'. apply HB. now right. }
      specialize (RL _ (nth_In _ [] Hi)). lia.
  Qed.
  Print Assumptions C52_no_errors.

  (** C52. [_depth_distr] and [_points_per_leaf_distr] are the distributions of
      the depths and of the numbers of points per leaf in each saved forest. *)
  Theorem C52_distributions :
    let forests := trace_forests (g_main_trace r) in
    Forall2 (depth_distribution (maxdepth a)) (map (map snd) forests) (depth_distr r) /\
    (maxdepth a <= 8 ->
     Forall2 (points_distribution (maxdepth a) (points_of (fst (prepare a))))
       (map (map (fun t => (snd (fst t), snd t))) forests) (all_points_per_leaf_distr r)).
  Proof.
    cbv zeta. pose proof (prepare_ok a OK) as SOK. pose proof (go_depth a OK) as HD.
    assert (W : forall f t, In f (trace_forests (g_main_trace r)) -> In t f ->
      zlen (snd (fst t)) = heap_size (maxdepth a) /\ zlen (snd t) = heap_size (maxdepth a) /\ no_stray (snd t)).
    { intros f t Hf Ht. rewrite forests_saved in Hf. apply in_map_iff in Hf as (j & <- & _).
      apply in_map_iff in Ht as (t0 & <- & Ht0). cbn [fst snd].
      destruct (C05_forest_well_formed _ _ SOK (saved_reached j)) as [_ WF]. destruct (WF t0 Ht0) as (_ & W1 & W2 & _ & _ & W3).
      rewrite depth_prepare in *. unfold heap_size. auto. }
    split.
    - unfold depth_distr.
      assert (EP : zlen (p_nonterminal (g_state r)) = maxdepth a).
      { destruct (fit_state_prior a OK) as (_ & _ & E). fold r in E. cbn [F rops] in *. rewrite E.
        unfold zlen. rewrite app_length, map_length. cbn [length].
        pose proof (zlen_arange (maxdepth a - 1) ltac:(lia)) as L. unfold zlen in L. lia. }
      rewrite EP. change (2 ^ (maxdepth a - 1)) with (heap_size (maxdepth a)).
      apply C38_trace_depths; [lia |]. intros f sp Hf Hsp. apply in_map_iff in Hf as (f0 & <- & Hf).
      apply in_map_iff in Hsp as (t & <- & Ht). destruct (W f0 t Hf Ht) as (_ & W2 & W3). auto.
    - intros H8. unfold all_points_per_leaf_distr. rewrite (proj1 state_data). unfold points_of.
      apply C38_trace_points; [lia | |].
      + intros f var sp Hf Ht. apply in_map_iff in Hf as (f0 & <- & Hf). apply in_map_iff in Ht as (t & E & Ht).
        injection E as <- <-. now apply (W f0 t).
      + pose proof (ok_n _ SOK). pose proof (ok_n_max _ SOK). lia.
  Qed.
  Print Assumptions C52_distributions.

  (** C52. With a minimum number [m] of points per leaf, [_points_per_leaf_distr]
      has no leaves with less than [m] points, nor with more than n - m, apart
      from the trees without decision nodes, whose only leaf has all the n
      points. *)
  Theorem C52_min_points : forall m row c, maxdepth a <= 8 ->
    (kw_min_points (initkw a) = Some (Some m) \/ kw_min_points (initkw a) = None /\ m = 5) ->
    In row (all_points_per_leaf_distr r) ->
    0 <= c < zlen (y_train a) -> c < m \/ zlen (y_train a) - m < c -> entry row c = 0.
  Proof.
    intros m row c H8 HM Hr Hc HB. pose proof (prepare_ok a OK) as SOK.
    destruct C52_distributions as [_ D]. specialize (D H8). cbv zeta in D.
    destruct (prepare_settings a OK) as (PX & _ & _ & PY & _ & PMP & _).
    assert (MP : i_min_points (fst (prepare a)) = Some m).
    { rewrite PMP. destruct HM as [-> | [-> ->]]; reflexivity. }
    assert (NP : zlen (points_of (fst (prepare a))) = zlen (y_train a)).
    { unfold points_of. rewrite zlen_map, (ok_n _ SOK). exact PY. }
    assert (G : forall fs rows, Forall2 (points_distribution (maxdepth a) (points_of (fst (prepare a)))) fs rows ->
      In row rows -> exists f, In f fs /\ points_distribution (maxdepth a) (points_of (fst (prepare a))) f row).
    { clear. intros fs rows F. induction F as [| f d fs rows P F IH]; intros H; [destruct H | destruct H as [<- | H]].
      - exists f. split; [now left | exact P].
      - destruct (IH H) as (f' & I & P'). exists f'. split; [now right | exact P']. }
    destruct (G _ _ D Hr) as (f & If & (_ & P)). destruct (P c ltac:(lia)) as (ls & FL & ->). clear P G D Hr.
    apply in_map_iff in If as (f0 & <- & If). rewrite forests_saved in If. apply in_map_iff in If as (j & <- & _).
    assert (EM : forall l, In l ls -> l = []).
    { intros l Hl.
      assert (G : exists t, In t (trees (saved_state a j)) /\
        lists (fun i => leaf_node (t_split t) i /\
          points_in (maxdepth a) (points_of (fst (prepare a))) (t_var t) (t_split t) i = c) l).
      { unfold forest in FL. rewrite map_map in FL. cbn [fst snd] in FL. revert Hl FL. generalize (trees (saved_state a j)). clear.
        intros ts. revert ls. induction ts as [| t ts IH]; intros ls Hl FL; inversion FL as [| ? l' ? ls' P F]; subst; [destruct Hl |].
        destruct Hl as [<- | Hl]; [exists t; split; [now left | exact P] |].
        destruct (IH ls' Hl F) as (t' & I & P'). exists t'. split; [now right | exact P']. }
      destruct G as (t & Ht & [_ LS]). destruct l as [| i l]; [reflexivity |]. exfalso.
      destruct (proj1 (LS i) (or_introl eq_refl)) as [LI PI].
      pose proof (C08_min_points_per_leaf _ _ t m SOK (saved_reached j) Ht MP) as C8. rewrite depth_prepare in C8.
      assert (DC : (exists q, decision (t_split t) q) \/ i = 1).
      { destruct LI as [R _]. inversion R; subst; [now right | |]; left; eexists; eassumption. }
      destruct DC as [DC | ->].
      - pose proof (C8 DC i LI) as M1.
        destruct (Z.eq_dec i 1) as [-> | NE].
        + destruct LI as [_ ND]. rewrite points_in_root in PI by exact ND. lia.
        + destruct (another_leaf _ i LI NE) as (i' & LI' & NE').
          pose proof (C8 DC i' LI') as M2.
          pose proof (points_in_two (maxdepth a) (points_of (fst (prepare a))) (t_var t) (t_split t) i i' ltac:(congruence)). lia.
      - destruct LI as [_ ND]. rewrite points_in_root in PI by exact ND. lia. }
    revert EM. clear. induction ls as [| l ls IH]; intros EM; [reflexivity |]. cbn [map fold_right].
    rewrite (EM l) by now left. rewrite IH by (intros; apply EM; now right). reflexivity.
  Qed.
  Print Assumptions C52_min_points.

  (** C52. [_show_tree] prints the nodes of the saved tree. *)
  Theorem C52_show_tree : forall i j, (i < Z.to_nat (ndpost a))%nat -> (j < Z.to_nat (ntree a))%nat ->
    exists t lines,
      nth_error (nth i (trace_forests (g_main_trace r)) []) j = Some t /\
      show_tree r i j false = Some lines /\
      map (fun l => (number l, node l)) lines = preorder (tree_of 0%R (maxdepth a) t) 1.
  Proof.
    intros i j Hi Hj. pose proof (prepare_ok a OK) as SOK.
    unfold show_tree. rewrite forests_saved.
    assert (E : nth_error (map (fun j => forest (saved_state a j)) saved) i = Some (forest (saved_state a i))).
    { rewrite nth_error_map. unfold saved.
      rewrite (nth_error_nth' _ 0%nat) by (rewrite seq_length; exact Hi). now rewrite seq_nth by exact Hi. }
    rewrite E. rewrite (nth_error_nth _ _ [] E).
    destruct (C05_forest_well_formed _ _ SOK (saved_reached i)) as [LT W].
    destruct (prepare_settings a OK) as (_ & _ & _ & _ & _ & _ & _ & _ & EN & _). rewrite EN in LT.
    unfold forest. rewrite nth_error_map.
    destruct (nth_error (trees (saved_state a i)) j) as [t |] eqn:Et;
      [| apply nth_error_None in Et; unfold zlen in LT; lia].
    cbn [option_map]. destruct (W t (nth_error_In _ _ Et)) as (W1 & W2 & W3 & _). rewrite depth_prepare in *.
    pose proof (go_depth a OK).
    destruct (C45_print_tree (fmode (fo := rops)) 0%R (maxdepth a) (t_leaf t) (t_var t) (t_split t)) as (lines & L1 & L2 & _);
      [lia | exact W1 | exact W2 | exact W3 |].
    exists (t_leaf t, t_var t, t_split t), lines. auto.
  Qed.
  Print Assumptions C52_show_tree.
End Props.

(** The data of the example in PropBART.v meet the conditions on the arguments. *)
Example ex_diagnostics {zo : zoob} {foo : foob rops} {g : rng rops} {rl : rlaws g} :
  let a := ex_args true in
  args_ok a /\ maxdepth a <= 8 /\ kw_min_points (initkw a) = None /\ 1 <= ndpost a /\
  (0 < g_scale (fst (fit (ex := ex_external) a)))%R /\ (0 < sigdf a)%R.
Proof.
  cbv zeta. split; [apply ex_args_ok |]. split; [cbn; lia |]. split; [reflexivity |]. split; [cbn; lia |].
  split; [| cbn [ex_args sigdf]; lra].
  assert (RG : is_range (y_train (ex_args true)) 11).
  { exists (-6)%R, 5%R. cbn [ex_args y_train map In]. split; [tauto |]. split; [tauto |]. split; [| lra].
    intros v Hv. repeat (destruct Hv as [<- | Hv]; [lra |]). destruct Hv. }
  destruct (ex_args_nonconstant true) as (N2 & _ & NK & _).
  pose proof (C48_scale (ex := ex_external) (ex_args true) 11 N2 NK RG) as E.
  cbn [ex_args a_k] in E. fold (ex_args true) in E. lra.
Qed.

(** A tree that is bad at the second and third iteration, and a tree that is
    bad at the first and third one *)
Example ex_goes_bad : goes_bad [[0; 2]; [4; 0]; [4; 16]] = [[false; true]; [true; false]; [false; true]].
Proof. reflexivity. Qed.
