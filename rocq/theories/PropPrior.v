(** The prior of [gbart] (C48). *)
From Coq Require Import String ZArith List Bool Reals Lia Lra Psatz.
From Coquelicot Require Import Coquelicot.
From Verif Require Import Base LemBase Laws SpecExact ModelJaxext ModelGrove ModelStep ModelLoop ModelPrep ModelBART
  SpecTree SpecRun SpecLoop SpecPrep SpecBART SpecPrior ProofGamma ProofRun ProofPrep PropPrep PropLoop PropTypes
  ProofBART PropBART ExampleReal.
Import ListNotations.
Open Scope Z_scope.

(** ** Centering is equivalent to adding an intercept *)
Section Centering.
  Local Open Scope R_scope.

  Lemma fold_plus_map A (f h : A -> R) l :
    fold_right Rplus 0 (map (fun v => f v + h v) l) =
    fold_right Rplus 0 (map f l) + fold_right Rplus 0 (map h l).
  Proof. induction l; cbn [map fold_right]; [lra | rewrite IHl; lra]. Qed.

  Lemma fold_scale_map A (f : A -> R) c l :
    fold_right Rplus 0 (map (fun v => c * f v) l) = c * fold_right Rplus 0 (map f l).
  Proof. induction l; cbn [map fold_right]; [lra | rewrite IHl; lra]. Qed.

  Lemma fold_const_map A c (l : list A) :
    fold_right Rplus 0 (map (fun _ => c) l) = INR (length l) * c.
  Proof. induction l; cbn [map fold_right]; [cbn; lra |]. rewrite IHl. cbn [length]. rewrite S_INR. lra. Qed.

  Lemma IZR_zlen A (l : list A) : IZR (zlen l) = INR (length l).
  Proof. unfold zlen. symmetry. apply INR_IZR_INZ. Qed.

  Lemma mean_of_rmean l : rmean l = mean_of l.
  Proof. unfold rmean, mean_of. now rewrite rsum_fold, IZR_zlen. Qed.

  Lemma mean_sum l : l <> [] -> fold_right Rplus 0 l = INR (length l) * mean_of l.
  Proof.
    intros H. unfold mean_of. field. apply not_0_INR. destruct l; [easy | discriminate].
  Qed.

  Section Data.
    Variables (x : list (list R)) (y : list R).
    Hypothesis Hx : forall row, In row x -> length row = length y.
    Hypothesis Hy : y <> [].

    (** Linear part at a point and at the mean point *)
    Definition lin (beta : list R) (i : nat) : R := fold_right Rplus 0 (map2 (fun row b => b * nth i row 0) x beta).
    Definition lin_mean (beta : list R) : R := fold_right Rplus 0 (map2 (fun row b => b * mean_of row) x beta).

    Lemma lin_sum beta :
      fold_right Rplus 0 (map (lin beta) (seq 0 (length y))) = INR (length y) * lin_mean beta.
    Proof.
      unfold lin, lin_mean. revert beta. induction x as [| row x' IH]; intros beta.
      - cbn [map2 fold_right]. rewrite fold_const_map, seq_length. lra.
      - destruct beta as [| b beta]; cbn [map2 fold_right].
        + rewrite fold_const_map, seq_length. lra.
        + rewrite (fold_plus_map _ (fun i => b * nth i row 0)), (fold_scale_map _ (fun i => nth i row 0)).
          rewrite IH by (intros; apply Hx; now right).
          assert (L : length row = length y) by (apply Hx; now left).
          rewrite <- L at 1. rewrite list_nth_seq. rewrite mean_sum, L.
          * lra.
          * intros E. rewrite E in L. destruct y; [easy | discriminate].
    Qed.

    (** residual without the intercept *)
    Definition res (beta : list R) (i : nat) : R :=
      (nth i y 0 - mean_of y) - (lin beta i - lin_mean beta).

    Lemma res_sum beta : fold_right Rplus 0 (map (res beta) (seq 0 (length y))) = 0.
    Proof.
      unfold res.
      rewrite (map_ext _ (fun i => nth i y 0 + (- mean_of y + (- 1 * lin beta i + lin_mean beta)))) by (intros; ring).
      rewrite (fold_plus_map _ (fun i => nth i y 0)), list_nth_seq, fold_plus_map, fold_const_map, fold_plus_map,
        fold_const_map, fold_scale_map, lin_sum, seq_length, mean_sum by exact Hy. ring.
    Qed.

    Lemma rss_shift beta c : rss_intercept x y c beta =
      fold_right Rplus 0 (map (fun i => res beta i ^ 2) (seq 0 (length y))) +
      INR (length y) * (c - (mean_of y - lin_mean beta)) ^ 2.
    Proof.
      set (e := c - (mean_of y - lin_mean beta)).
      unfold rss_intercept, fitted.
      rewrite (map_ext _ (fun i => res beta i ^ 2 + (- (2 * e) * res beta i + e ^ 2))).
      - rewrite fold_plus_map, fold_plus_map, fold_const_map, fold_scale_map, res_sum, seq_length. ring.
      - intros i. fold (lin beta i). unfold res, e. ring.
    Qed.

    Lemma columns_seq : columns 0 x = map (point 0 x) (seq 0 (if x then 0 else length y)).
    Proof.
      unfold columns, point. destruct x as [| r x'] eqn:E; [reflexivity |].
      unfold ncols. unfold arange. rewrite map_map.
      assert (L : length r = length y) by (apply Hx; now left).
      unfold zlen. rewrite L, Nat2Z.id. apply map_ext. intros i. now rewrite Nat2Z.id.
    Qed.

    Lemma dot_centered coef i :
      fold_right Rplus 0 (map2 Rmult (map2 Rminus (point 0 x i) (map rmean x)) coef) =
      lin coef i - lin_mean coef.
    Proof.
      unfold lin, lin_mean, point. revert coef. clear Hx. induction x as [| row x' IH]; intros coef.
      - cbn [map map2 fold_right]. lra.
      - destruct coef as [| b coef]; cbn [map map2 fold_right]; [lra |]. rewrite IH, mean_of_rmean. lra.
    Qed.

    Lemma rss_centered coef : x <> [] ->
      rss (map (fun row => map2 Rminus row (map rmean x)) (columns 0 x)) (map (fun v => v - rmean y) y) coef =
      fold_right Rplus 0 (map (fun i => res coef i ^ 2) (seq 0 (length y))).
    Proof.
      intros NE. rewrite columns_seq. destruct x as [| r x'] eqn:Ex; [easy |]. rewrite <- Ex in *.
      rewrite map_map. unfold rss.
      rewrite <- (list_nth_seq 0 y) at 2. rewrite map_map, map2_map_map. f_equal. apply map_ext. intros i.
      rewrite dot_centered, mean_of_rmean. unfold res. ring.
    Qed.

    Lemma centering_intercept {ex : external} {EX : external_ok ex} : x <> [] ->
      least_squares x y (fst (lstsq (map (fun row => map2 Rminus row (map rmean x)) (columns 0 x))
                                (map (fun v => v - rmean y) y))).
    Proof.
      intros NE. split.
      - intros c beta. rewrite rss_shift. pose proof (pos_INR (length y)).
        pose proof (pow2_ge_0 (c - (mean_of y - lin_mean beta))).
        eapply Rle_trans; [apply (ex_lower _ _ beta) |]. rewrite rss_centered by exact NE. nra.
      - intros m Hm. apply ex_greatest. intros coef. rewrite rss_centered by exact NE.
        specialize (Hm (mean_of y - lin_mean coef) coef). rewrite rss_shift in Hm.
        replace (mean_of y - lin_mean coef - (mean_of y - lin_mean coef)) with 0 in Hm by ring. lra.
    Qed.
  End Data.

  Lemma variance_shift c l : l <> [] -> rvar (map (fun v => v - c) l) = variance_of l.
  Proof.
    intros NE. unfold rvar, variance_of. rewrite rsum_fold, zlen_map, IZR_zlen. f_equal. f_equal. rewrite map_map.
    apply map_ext. intros v.
    replace (rmean (map (fun v0 => v0 - c) l)) with (mean_of l - c); [ring |].
    rewrite mean_of_rmean. unfold mean_of. rewrite map_length.
    rewrite (map_ext (fun v => v - c) (fun v => v + - c)) by (intros; ring).
    rewrite (fold_plus_map _ (fun v => v)), fold_const_map, map_id. field.
    apply not_0_INR. destruct l; [easy | discriminate].
  Qed.
End Centering.

Section Props.
  Context {ex : external} {zo : zoob} {foo : foob rops} {g : rng rops}.

  Lemma fit_attributes a : let r := fst (fit a) in
    g_offset r = process_offset (y_train a) (a_offset a) /\
    g_scale r = process_scale (y_train a) (a_k a) /\
    (g_lamda r, g_sigest r) = process_noise_variance (x_train a) (y_train a) (a_sigest a)
                                (sigdf a) (sigquant a) (a_lamda a) (g_offset r) /\
    i_sigma2_alpha (fst (prepare a)) = (sigdf a / 2)%R /\
    i_sigma2_beta (fst (prepare a)) = (g_lamda r / (g_scale r * g_scale r) * (sigdf a / 2))%R /\
    i_p_nonterminal (fst (prepare a)) =
      map (fun depth => base a / Rpower (IZR (1 + depth)) (power a))%R (arange (maxdepth a - 1)).
  Proof.
    unfold fit, prepare. destruct (process_noise_variance _ _ _ _ _ _ _) as [la se] eqn:E.
    destruct (determine_splits _ _ _) as [[sp ms] bi]. destruct (run_mcmc _ _ _ _ _ _) as [[[fs bt] mt] lg].
    cbn [fst snd g_offset g_scale g_lamda g_sigest setup_mcmc i_sigma2_alpha i_sigma2_beta i_p_nonterminal].
    repeat split. now rewrite E.
  Qed.

  Lemma fit_state_reached {rl : rlaws g} a : args_ok a -> reached (fst (prepare a)) (g_state (fst (fit a))).
  Proof.
    intros OK. pose proof (go_nskip a OK) as H1. pose proof (go_ndpost a OK) as H2. pose proof (go_keepevery a OK) as H3.
    unfold fit. destruct (prepare a) as [s [[[[offset scale] lamda] sigest] splits]].
    pose proof (C31_schedule _ (make_simple_print_callback (printevery a)) (nskip a) (ndpost a) (keepevery a)
      (init_of s) (seed a) H1 H2 H3) as R.
    destruct (run_mcmc _ _ _ _ _ _) as [[[final bt] mt] log]. destruct R as (-> & _).
    cbn [fst snd g_state]. apply chain_reached.
  Qed.

  Lemma fit_state_prior {rl : rlaws g} a : args_ok a -> let r := fst (fit a) in
    sigma2_alpha (g_state r) = (sigdf a / 2)%R /\
    sigma2_beta (g_state r) = (g_lamda r / (g_scale r * g_scale r) * (sigdf a / 2))%R /\
    p_nonterminal (g_state r) =
      (map (fun depth => base a / Rpower (IZR (1 + depth)) (power a)) (arange (maxdepth a - 1)) ++ [0])%R.
  Proof.
    intros OK. cbv zeta. pose proof (fit_state_reached a OK) as R.
    destruct (reached_fields _ _ R) as (_ & _ & _ & _ & _ & E1 & _ & _ & _ & E2 & E3 & _).
    destruct (fit_attributes a) as (_ & _ & _ & F1 & F2 & F3). rewrite E1, E2, E3, F1, F2.
    split; [reflexivity |]. split; [reflexivity |].
    change (p_nonterminal (init_of (fst (prepare a)))) with (i_p_nonterminal (fst (prepare a)) ++ [0%R]).
    now rewrite F3.
  Qed.

  (** C48. The prior probability that a node at depth d splits is
      base / (1 + d)^power; at the last level it is 0. *)
  Theorem C48_tree_prior : forall {rl : rlaws g} a d, args_ok a -> 0 <= d < maxdepth a ->
    nth (Z.to_nat d) (p_nonterminal (g_state (fst (fit a)))) (-1)%R =
    (if d =? maxdepth a - 1 then 0 else base a / Rpower (1 + IZR d) (power a))%R.
  Proof.
    intros rl a d OK Hd. destruct (fit_state_prior a OK) as (_ & _ & ->).
    assert (L : zlen (map (fun depth => base a / Rpower (IZR (1 + depth)) (power a))%R (arange (maxdepth a - 1))) = maxdepth a - 1).
    { rewrite zlen_map, zlen_arange by lia. reflexivity. }
    destruct (Z.eqb_spec d (maxdepth a - 1)) as [E | NE].
    - rewrite app_nth2 by (unfold zlen in L; lia).
      replace (Z.to_nat d - _)%nat with 0%nat by (unfold zlen in L; lia). reflexivity.
    - rewrite app_nth1 by (unfold zlen in L; lia).
      change (zget (-1)%R (map (fun depth => base a / Rpower (IZR (1 + depth)) (power a))%R (arange (maxdepth a - 1))) d =
        (base a / Rpower (1 + IZR d) (power a))%R).
      rewrite (zget_map _ _ _ 0 (-1)%R) by (rewrite zlen_arange; lia). rewrite zget_arange by lia.
      now rewrite plus_IZR.
  Qed.

  (** C48. The prior mean of the function is the given offset or the mean of the
      response. *)
  Theorem C48_offset : forall a,
    g_offset (fst (fit a)) =
    match a_offset a with Some o => o | None => if y_train a then 0%R else mean_of (y_train a) end.
  Proof.
    intros a. destruct (fit_attributes a) as (-> & _). unfold process_offset.
    destruct (a_offset a); [reflexivity |]. destruct (y_train a) as [| v l] eqn:E; [reflexivity |].
    rewrite mean_of_rmean. destruct (Z.ltb_spec (zlen (v :: l)) 1) as [H | H]; [| reflexivity].
    rewrite zlen_cons in H. pose proof (zlen_nonneg _ l). lia.
  Qed.

  (** C48. The prior standard deviation of the function is half the range of the
      response divided by k. *)
  Theorem C48_scale : forall a r, 2 <= zlen (y_train a) -> a_k a <> 0%R -> is_range (y_train a) r ->
    (a_k a * g_scale (fst (fit a)) = r / 2)%R.
  Proof.
    intros a r Hn Hk (lo & hi & Ilo & Ihi & B & ->). destruct (fit_attributes a) as (_ & -> & _).
    unfold process_scale. destruct (Z.ltb_spec (zlen (y_train a)) 2); [lia |].
    assert (NE : y_train a <> []) by (intros E; rewrite E, zlen_nil in Hn; lia).
    destruct (rmin_extreme _ NE) as [P1 P2], (rmax_extreme _ NE) as [P3 P4].
    assert (rmin (y_train a) = lo) by (apply Rle_antisym; [apply P2, Ilo | apply (B _ P1)]).
    assert (rmax (y_train a) = hi) by (apply Rle_antisym; [apply (B _ P3) | apply P4, Ihi]).
    subst. field. exact Hk.
  Qed.
  Theorem C48_scale_single : forall a, zlen (y_train a) < 2 -> g_scale (fst (fit a)) = 1%R.
  Proof.
    intros a Hn. destruct (fit_attributes a) as (_ & -> & _).
    unfold process_scale. destruct (Z.ltb_spec (zlen (y_train a)) 2); [reflexivity | lia].
  Qed.

  (** C48. The prior on the noise variance is an inverse chi-squared with sigdf
      degrees of freedom, that is an inverse gamma with shape sigdf / 2, and with
      harmonic mean lamda. The variance in the units of the response is the
      square of the scale times the one of the sampler. *)
  Theorem C48_harmonic_mean : forall {rl : rlaws g} a, args_ok a ->
    let r := fst (fit a) in
    g_scale r <> 0%R -> (0 < sigdf a)%R -> (0 < g_lamda r)%R ->
    sigma2_alpha (g_state r) = (sigdf a / 2)%R /\
    is_harmonic_mean (invgamma_density (sigma2_alpha (g_state r)) (g_scale r ^ 2 * sigma2_beta (g_state r))%R) (g_lamda r).
  Proof.
    intros rl a OK r Hs Hd Hl. unfold r in *. destruct (fit_state_prior a OK) as (E1 & E2 & _).
    split; [exact E1 |].
    replace (g_lamda (fst (fit a))) with
      (g_scale (fst (fit a)) ^ 2 * sigma2_beta (g_state (fst (fit a))) / sigma2_alpha (g_state (fst (fit a))))%R.
    - rewrite E1, E2.
      replace (g_scale (fst (fit a)) ^ 2 * (g_lamda (fst (fit a)) / (g_scale (fst (fit a)) * g_scale (fst (fit a))) * (sigdf a / 2)))%R
        with (g_lamda (fst (fit a)) * (sigdf a / 2))%R by (field; exact Hs).
      apply invgamma_harmonic; [lra |]. apply Rmult_lt_0_compat; lra.
    - rewrite E1, E2. field. split; [exact Hs | lra].
  Qed.

  (** C48. If lamda is not given, the noise standard deviation is less than sigest
      with prior probability sigquant. *)
  Theorem C48_quantile : forall {rl : rlaws g} a sigest, args_ok a ->
    let r := fst (fit a) in
    is_upper_quantile (gamma_density (sigdf a / 2)) (sigquant a) (gammainccinv (sigdf a / 2) (sigquant a)) ->
    g_scale r <> 0%R -> (0 < sigdf a)%R -> a_lamda a = None -> g_sigest r = Some sigest -> (0 < sigest)%R ->
    is_quantile (invgamma_density (sigma2_alpha (g_state r)) (g_scale r ^ 2 * sigma2_beta (g_state r))%R)
      (sigquant a) (sigest ^ 2).
  Proof.
    intros rl a s OK r Q Hs Hd HL HE HS. unfold r in *. destruct (fit_state_prior a OK) as (E1 & E2 & _).
    destruct (fit_attributes a) as (_ & _ & E & _).
    unfold process_noise_variance in E. rewrite HL in E.
    match type of E with (_, _) = (?s2 / _, _)%R => set (sigest2 := s2) in E end.
    injection E as E3 E4. rewrite HE in E4. injection E4 as E4.
    assert (P : (0 < sigest2)%R).
    { destruct (Rlt_or_le 0 sigest2) as [P | P]; [exact P |]. rewrite (sqrt_neg_0 _ P) in E4. lra. }
    assert (S2 : (s ^ 2 = sigest2)%R) by (rewrite E4, <- Rsqr_pow2; apply Rsqr_sqrt; lra).
    pose proof (proj1 Q) as Hp. unfold invgamma_ppf in E3.
    assert (EB : (g_scale (fst (fit a)) ^ 2 * sigma2_beta (g_state (fst (fit a))) =
                  sigest2 * gammainccinv (sigdf a / 2) (sigquant a))%R).
    { rewrite E2, E3. field. repeat split; lra. }
    rewrite EB, E1, S2.
    replace sigest2 with (sigest2 * gammainccinv (sigdf a / 2) (sigquant a) / gammainccinv (sigdf a / 2) (sigquant a))%R at 2
      by (field; lra).
    apply invgamma_quantile; [| exact Q]. now apply Rmult_lt_0_compat.
  Qed.

  (** C48. Where sigest comes from. [C48_sigest_variance]: with n <= p it is the
      standard deviation, not the variance as documented. *)
  Theorem C48_sigest_given : forall a, (forall l, a_lamda a = Some l ->
      g_lamda (fst (fit a)) = l /\ g_sigest (fst (fit a)) = None) /\
    (forall s, a_lamda a = None -> a_sigest a = Some s -> (0 <= s)%R -> g_sigest (fst (fit a)) = Some s).
  Proof.
    intros a. destruct (fit_attributes a) as (_ & _ & E & _). unfold process_noise_variance in E. split.
    - intros l H. rewrite H in E. injection E as -> ->. auto.
    - intros s H1 H2 Hs. rewrite H1, H2 in E. injection E as _ ->. f_equal. now apply sqrt_square.
  Qed.

  Theorem C48_sigest_single : forall a, a_lamda a = None -> a_sigest a = None -> zlen (y_train a) < 2 ->
    g_sigest (fst (fit a)) = Some 1%R.
  Proof.
    intros a H1 H2 Hn. destruct (fit_attributes a) as (_ & _ & E & _). unfold process_noise_variance in E.
    rewrite H1, H2 in E. destruct (Z.ltb_spec (zlen (y_train a)) 2); [| lia]. injection E as _ ->. f_equal. apply sqrt_1.
  Qed.

  Theorem C48_sigest_variance : forall a, a_lamda a = None -> a_sigest a = None ->
    2 <= zlen (y_train a) <= zlen (x_train a) ->
    g_sigest (fst (fit a)) = Some (sqrt (variance_of (y_train a))).
  Proof.
    intros a H1 H2 Hn. destruct (fit_attributes a) as (_ & _ & E & _). unfold process_noise_variance in E.
    rewrite H1, H2 in E. destruct (Z.ltb_spec (zlen (y_train a)) 2); [lia |].
    destruct (Z.leb_spec (zlen (y_train a)) (zlen (x_train a))); [| lia]. injection E as _ ->.
    rewrite variance_shift; [reflexivity |]. intros N. rewrite N, zlen_nil in Hn. lia.
  Qed.

  (** The matrix of the predictors minus their means, one row per point *)
  Definition centered (x : list (list R)) (n : nat) : list (list R) :=
    map (fun i => map (fun row => nth i row 0 - mean_of row)%R x) (seq 0 n).

  Theorem C48_sigest_regression : forall {EX : external_ok ex} a, args_ok a -> a_lamda a = None -> a_sigest a = None ->
    2 <= zlen (y_train a) -> zlen (x_train a) < zlen (y_train a) ->
    exists chisq, least_squares (x_train a) (y_train a) chisq /\
      forall y, let rank := snd (lstsq (centered (x_train a) (length (y_train a))) y) in
      g_sigest (fst (fit a)) = Some (sqrt (chisq / IZR (zlen (y_train a) - rank))).
  Proof.
    intros EX a OK H1 H2 Hn Hp. destruct (fit_attributes a) as (_ & _ & E & _). unfold process_noise_variance in E.
    rewrite H1, H2 in E. destruct (Z.ltb_spec (zlen (y_train a)) 2); [lia |].
    destruct (Z.leb_spec (zlen (y_train a)) (zlen (x_train a))); [lia |].
    assert (HX : forall row, In row (x_train a) -> length row = length (y_train a)).
    { intros row Hr. pose proof (go_rows a OK row Hr) as G. unfold zlen in G. lia. }
    assert (HY : y_train a <> []) by (intros N; rewrite N, zlen_nil in Hn; lia).
    assert (NX : x_train a <> []) by (intros N; pose proof (go_p a OK) as G; rewrite N, zlen_nil in G; lia).
    pose proof (centering_intercept (x_train a) (y_train a) HX HY NX) as L.
    assert (C : map (fun row => map2 Rminus row (map rmean (x_train a))) (columns 0%R (x_train a)) =
                centered (x_train a) (length (y_train a))).
    { rewrite (columns_seq _ (y_train a) HX). unfold centered, point. destruct (x_train a) as [| r0 x0] eqn:EE; [easy |].
      rewrite map_map. apply map_ext. intros i. rewrite map2_map_map. apply map_ext. intros row.
      now rewrite mean_of_rmean. }
    rewrite C in L, E. cbv zeta in E.
    match type of L with least_squares _ _ (fst (lstsq ?A ?y)) =>
      pose proof (ex_rank (external_ok := EX) A y) as RK; destruct (lstsq A y) as [chisq rank] end.
    cbn [fst snd] in *. exists chisq. split; [exact L |]. intros y. cbv zeta.
    change (g_sigest (fst (fit a)) = Some (sqrt (chisq / IZR (zlen (y_train a) - snd (lstsq (centered (x_train a) (length (y_train a))) y))))).
    rewrite <- (RK y). injection E as _ ->. reflexivity.
  Qed.
End Props.
Print Assumptions C48_tree_prior.
Print Assumptions C48_offset.
Print Assumptions C48_scale.
Print Assumptions C48_scale_single.
Print Assumptions C48_harmonic_mean.
Print Assumptions C48_quantile.
Print Assumptions C48_sigest_given.
Print Assumptions C48_sigest_single.
Print Assumptions C48_sigest_variance.
Print Assumptions C48_sigest_regression.

(** C48. The documentation says that with n <= p sigest is the variance of the
    response. It is not: 3 points, 3 predictors, y = 0, 3, 6. *)
Definition ex_args_wide : gbart_args := {|
  x_train := [map IZR [0; 1; 2]; map IZR [2; 0; 2]; map IZR [1; 0; 0]];
  y_train := map IZR [0; 3; 6];
  usequants := true; a_sigest := None; sigdf := 3; sigquant := 9 / 10; a_k := 2; power := 2;
  base := 95 / 100; maxdepth := 6; a_lamda := None; a_offset := None; ntree := 200; numcut := 100;
  ndpost := 1000; nskip := 100; keepevery := 1; printevery := 100; seed := KRoot 0;
  initkw := mkinitkw None None None false
|}.

Theorem C48_sigest_documented_refuted : exists a, args_ok a /\ a_lamda a = None /\ a_sigest a = None /\
  2 <= zlen (y_train a) <= zlen (x_train a) /\
  forall (ex : external) (zo : zoob) (foo : foob rops) (g : rng rops),
    g_sigest (fst (fit a)) <> Some (variance_of (y_train a)).
Proof.
  exists ex_args_wide. split; [| split; [reflexivity |]; split; [reflexivity |]; split].
  - constructor; cbn [ex_args_wide x_train y_train numcut maxdepth base ndpost nskip keepevery initkw
      kw_resid_batch kw_count_batch]; try lia; try discriminate; try (unfold zlen; cbn [length map]; lia).
    + intros row [<- | [<- | [<- | []]]]; reflexivity.
    + lra.
    + left. left. reflexivity.
  - unfold zlen; cbn; lia.
  - intros ex zo foo g. rewrite C48_sigest_variance; [| reflexivity | reflexivity | unfold zlen; cbn; lia].
    intros H. assert (E : sqrt (variance_of (y_train ex_args_wide)) = variance_of (y_train ex_args_wide)).
    { exact (f_equal (fun o => match o with Some v => v | None => 0%R end) H). }
    assert (V : variance_of (y_train ex_args_wide) = 6%R).
    { unfold variance_of, mean_of. cbn [ex_args_wide y_train map length fold_right INR]. field. }
    rewrite V in E. apply (f_equal (fun v => v * v)%R) in E. rewrite sqrt_sqrt in E by lra. lra.
Qed.
Print Assumptions C48_sigest_documented_refuted.

(** ** The hypotheses are met *)

(** With sigdf = 2 the gamma distribution is exponential, and [ex_external] has
    the right quantile. *)
Example ex_quantile : is_upper_quantile (gamma_density (2 / 2)) (9 / 10) (gammainccinv (external := ex_external) (2 / 2) (9 / 10)).
Proof.
  change (gammainccinv (2 / 2) (9 / 10)) with (- ln (9 / 10))%R.
  assert (H0 : (0 < - ln (9 / 10))%R) by (pose proof (ln_increasing (9 / 10) 1 ltac:(lra) ltac:(lra)) as Q; rewrite ln_1 in Q; lra).
  assert (D : forall x, (0 < x)%R -> gamma_density (2 / 2) x = exp (- x)).
  { intros x Hx. unfold gamma_density. replace (2 / 2 - 1)%R with 0%R by lra. rewrite Rpower_O by exact Hx. lra. }
  assert (DD : forall x, Derive (fun u => - exp (- u))%R x = exp (- x)).
  { intros x. apply is_derive_unique. auto_derive; [trivial | lra]. }
  assert (I : forall (Fa : (R -> Prop) -> Prop) (FFa : Filter Fa) z, Fa (fun t => 0 < t)%R -> filterlim (fun u => - exp (- u))%R Fa (locally z) ->
    is_RInt_gen (gamma_density (2 / 2)) Fa (Rbar_locally p_infty) (0 - z)%R).
  { intros Fa FFa z P L. apply (is_RInt_gen_ext (Derive (fun u => - exp (- u))%R)).
    - refine (Filter_prod _ _ _ _ _ P infty_pos _). intros u v Hu Hv x [Hx _]. cbn [fst snd] in *.
      rewrite DD, D; [reflexivity |]. eapply Rlt_trans; [| exact Hx]. now apply Rmin_glb_lt.
    - apply is_RInt_gen_Derive.
      + apply filter_forall. intros ab x _. auto_derive. trivial.
      + apply filter_forall. intros ab x _. apply (continuous_ext (fun u => exp (- u))); [intros; now rewrite DD |].
        apply (ex_derive_continuous (K := R_AbsRing) (V := R_NormedModule)). auto_derive. trivial.
      + exact L.
      + replace 0%R with (- 0)%R at 1 by lra.
        apply (is_lim_opp (fun u => exp (- u)) p_infty 0%R).
        apply (is_lim_comp exp Ropp p_infty 0%R m_infty is_lim_exp_m).
        * apply (is_lim_opp (fun u => u) p_infty p_infty). apply is_lim_id.
        * exists 0%R. intros; discriminate. }
  split; [exact H0 |]. exists 1%R. split; [lra |]. split.
  - unfold integral_positive. replace 1%R with (0 - - exp (- 0))%R by (rewrite Ropp_0, exp_0; lra).
    apply I; [typeclasses eauto | apply at_right_pos |].
    assert (C : continuous (fun u => - exp (- u))%R 0%R)
      by (apply (ex_derive_continuous (K := R_AbsRing) (V := R_NormedModule)); auto_derive; trivial).
    intros P HP. specialize (C P HP). unfold filtermap, at_right, within in *. revert C. apply filter_imp. auto.
  - unfold integral_above. replace (9 / 10 * 1)%R with (0 - - exp (- (- ln (9 / 10))))%R
      by (rewrite Ropp_involutive, exp_ln; lra).
    apply I; [typeclasses eauto | exact H0 |].
    intros P HP. apply locally_singleton in HP. exact HP.
Qed.

Definition ex_args_prior : gbart_args := {|
  x_train := [map IZR [0; 1; 2; 3; 4; 5]; map IZR [2; 0; 2; 1; 0; 7]];
  y_train := map IZR [3; -1; 4; -2; 5; -6];
  usequants := true; a_sigest := Some 2%R; sigdf := 2; sigquant := 9 / 10; a_k := 2; power := 2;
  base := 95 / 100; maxdepth := 6; a_lamda := None; a_offset := None; ntree := 200; numcut := 100;
  ndpost := 1000; nskip := 100; keepevery := 1; printevery := 100; seed := KRoot 0;
  initkw := mkinitkw None None None false
|}.

Example ex_args_prior_ok : args_ok ex_args_prior /\ is_range (y_train ex_args_prior) 11 /\ (0 < sigdf ex_args_prior)%R.
Proof.
  split; [| split; [| cbn; lra]].
  - constructor; cbn [ex_args_prior x_train y_train numcut maxdepth base ndpost nskip keepevery initkw
      kw_resid_batch kw_count_batch]; try lia; try discriminate; try (unfold zlen; cbn [length map]; lia).
    + intros row [<- | [<- | []]]; reflexivity.
    + lra.
    + left. left. reflexivity.
  - exists (-6)%R, 5%R. cbn [ex_args_prior y_train map In]. split; [tauto |]. split; [tauto |]. split; [| lra].
    intros v H. repeat (destruct H as [<- | H]; [lra |]). destruct H.
Qed.

(** In this case the noise variance is less than 4 with probability 9/10. *)
Example ex_prior : forall (zo : zoob) (foo : foob rops) (g : rng rops) (rl : rlaws g),
  let r := fst (fit (ex := ex_external) ex_args_prior) in
  g_scale r <> 0%R /\ g_sigest r = Some 2%R /\
  is_quantile (invgamma_density (sigma2_alpha (g_state r)) (g_scale r ^ 2 * sigma2_beta (g_state r))%R) (9 / 10) (2 ^ 2).
Proof.
  intros zo foo g rl. cbv zeta. destruct ex_args_prior_ok as (OK & RG & Hd).
  assert (HS : g_scale (fst (fit (ex := ex_external) ex_args_prior)) <> 0%R).
  { intros E. pose proof (C48_scale (ex := ex_external) ex_args_prior 11 ltac:(unfold zlen; cbn; lia)
      ltac:(cbn; lra) RG) as Q. rewrite E in Q. cbn in Q. lra. }
  assert (HE : g_sigest (fst (fit (ex := ex_external) ex_args_prior)) = Some 2%R).
  { apply (C48_sigest_given (ex := ex_external) ex_args_prior); [reflexivity | reflexivity | lra]. }
  split; [exact HS |]. split; [exact HE |].
  exact (C48_quantile (ex := ex_external) ex_args_prior 2%R OK ex_quantile HS Hd eq_refl HE Rlt_0_2).
Qed.
