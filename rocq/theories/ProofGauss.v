(** The Gaussian integral. *)
From Coq Require Import ZArith List Reals Lra Lia Permutation.
From Coquelicot Require Import Coquelicot.
From Verif Require Import SpecPosterior ProofNormal.
Import ListNotations.
Open Scope R_scope.

Definition gexp (t : R) : R := exp (- (t * t)).
Definition gA (x : R) : R := RInt gexp 0 x.
Definition gk (x t : R) : R := exp (- (x * x) * (1 + t * t)) / (1 + t * t).
Definition gB (x : R) : R := RInt (gk x) 0 1.

Lemma gexp_continuous : forall x, continuous gexp x.
Proof.
  intros x. apply (ex_derive_continuous (K := R_AbsRing) (V := R_NormedModule)).
  unfold gexp. auto_derive. trivial.
Qed.

Lemma gexp_int : forall a b, ex_RInt gexp a b.
Proof. intros. apply (ex_RInt_continuous (V := R_CompleteNormedModule)). intros; apply gexp_continuous. Qed.

Lemma gA_derive : forall x, is_derive gA x (gexp x).
Proof.
  intros x. apply (is_derive_RInt gexp gA 0 x).
  - apply filter_forall. intros y. unfold gA. apply (RInt_correct (V := R_CompleteNormedModule)). apply gexp_int.
  - apply gexp_continuous.
Qed.

Lemma den_pos : forall t, 0 < 1 + t * t.
Proof. intros. nra. Qed.

Lemma gk_continuous : forall x t, continuous (gk x) t.
Proof.
  intros x t. apply (ex_derive_continuous (K := R_AbsRing) (V := R_NormedModule)).
  unfold gk. pose proof (den_pos t). auto_derive. lra.
Qed.

Lemma gk_int : forall x a b, ex_RInt (gk x) a b.
Proof. intros. apply (ex_RInt_continuous (V := R_CompleteNormedModule)). intros; apply gk_continuous. Qed.

Definition gk' (x t : R) : R := - 2 * x * exp (- (x * x) * (1 + t * t)).

Lemma gk_derive : forall x t, is_derive (fun u => gk u t) x (gk' x t).
Proof.
  intros x t. unfold gk, gk'. pose proof (den_pos t). auto_derive; [trivial |]. field. lra.
Qed.

Lemma gB_derive : forall x, is_derive gB x (RInt (gk' x) 0 1).
Proof.
  intros x.
  replace (RInt (gk' x) 0 1) with (RInt (fun t => Derive (fun u => gk u t) x) 0 1).
  - apply (is_derive_RInt_param gk 0 1 x).
    + apply filter_forall. intros y t _. eexists. apply gk_derive.
    + intros t _.
      apply (continuity_2d_pt_ext gk').
      { intros u v. symmetry. apply is_derive_unique. apply gk_derive. }
      unfold gk'.
      apply continuity_2d_pt_mult.
      * apply continuity_2d_pt_mult; [apply continuity_2d_pt_const | apply continuity_2d_pt_id1].
      * apply (continuity_1d_2d_pt_comp exp).
        { apply derivable_continuous_pt. apply derivable_pt_exp. }
        apply continuity_2d_pt_mult.
        { apply continuity_2d_pt_opp. apply continuity_2d_pt_mult; apply continuity_2d_pt_id1. }
        apply continuity_2d_pt_plus; [apply continuity_2d_pt_const |].
        apply continuity_2d_pt_mult; apply continuity_2d_pt_id2.
    + apply filter_forall. intros y. apply gk_int.
  - apply RInt_ext. intros t _. apply is_derive_unique. apply gk_derive.
Qed.

Lemma gB_derive_val : forall x, RInt (gk' x) 0 1 = - 2 * gexp x * gA x.
Proof.
  intros x. unfold gA.
  assert (E : RInt (fun y => scal x (gexp (x * y + 0))) 0 1 = RInt gexp (x * 0 + 0) (x * 1 + 0)).
  { apply (RInt_comp_lin (V := R_CompleteNormedModule)). apply gexp_int. }
  replace (x * 0 + 0) with 0 in E by ring. replace (x * 1 + 0) with x in E by ring.
  rewrite <- E.
  assert (E2 : RInt (fun y => scal (- 2 * gexp x) (scal x (gexp (x * y + 0)))) 0 1 =
               scal (- 2 * gexp x) (RInt (fun y => scal x (gexp (x * y + 0))) 0 1)).
  { apply (RInt_scal (V := R_CompleteNormedModule)).
    apply (ex_RInt_continuous (V := R_CompleteNormedModule)). intros t _.
    apply (ex_derive_continuous (K := R_AbsRing) (V := R_NormedModule)).
    unfold gexp, scal; cbn; unfold mult; cbn. auto_derive. trivial. }
  change (scal (- 2 * gexp x) (RInt (fun y => scal x (gexp (x * y + 0))) 0 1)) with
    (- 2 * gexp x * RInt (fun y => scal x (gexp (x * y + 0))) 0 1) in E2.
  rewrite <- E2. apply RInt_ext. intros t _.
  unfold gk', gexp, scal; cbn; unfold mult; cbn.
  replace (- (x * x) * (1 + t * t)) with (- (x * x) + - ((x * t + 0) * (x * t + 0))) by ring.
  rewrite exp_plus. ring.
Qed.

Definition gS (x : R) : R := gA x * gA x + gB x.

Lemma gS_derive : forall x, is_derive gS x 0.
Proof.
  intros x. unfold gS.
  assert (H1 : is_derive (fun x => gA x * gA x) x (gexp x * gA x + gA x * gexp x)).
  { apply (is_derive_mult gA gA x (gexp x) (gexp x)); try apply gA_derive.
    intros; apply Rmult_comm. }
  pose proof (gB_derive x) as H2. rewrite gB_derive_val in H2.
  pose proof (is_derive_plus _ _ _ _ _ H1 H2) as H3.
  replace 0 with (plus (gexp x * gA x + gA x * gexp x) (- 2 * gexp x * gA x)); auto.
  unfold plus; cbn. ring.
Qed.

Lemma gS_const : forall x, gS x = gS 0.
Proof.
  intros x. destruct (MVT_gen gS 0 x (fun _ => 0)) as (c & _ & E).
  - intros; apply gS_derive.
  - intros y _. apply continuity_pt_filterlim.
    apply (ex_derive_continuous (K := R_AbsRing) (V := R_NormedModule)). eexists; apply gS_derive.
  - lra.
Qed.

Lemma gS_0 : gS 0 = PI / 4.
Proof.
  unfold gS. assert (E : gA 0 = 0) by (exact (RInt_point (V := R_CompleteNormedModule) 0 gexp)). rewrite E.
  rewrite Rmult_0_l, Rplus_0_l. unfold gB.
  assert (H : is_RInt (fun t => / (1 + t * t)) 0 1 (minus (atan 1) (atan 0))).
  { apply (is_RInt_derive atan (fun t => / (1 + t * t))).
    - intros t _. auto_derive; [trivial |]. pose proof (den_pos t). unfold Rsqr. field. nra.
    - intros t _. apply (ex_derive_continuous (K := R_AbsRing) (V := R_NormedModule)).
      pose proof (den_pos t). auto_derive. lra. }
  transitivity (RInt (fun t => / (1 + t * t)) 0 1).
  - apply RInt_ext. intros t _. unfold gk. replace (- (0 * 0) * (1 + t * t)) with 0 by ring.
    rewrite exp_0. unfold Rdiv. apply Rmult_1_l.
  - rewrite (is_RInt_unique _ _ _ _ H). rewrite atan_1, atan_0. unfold minus, plus, opp; cbn. lra.
Qed.

Lemma gB_bounds : forall x, 0 <= gB x <= gexp x.
Proof.
  intros x. assert (K : forall t, 0 <= gk x t <= gexp x).
  { intros t. unfold gk, gexp. pose proof (den_pos t). split.
    - apply Rlt_le. apply Rdiv_lt_0_compat; auto. apply exp_pos.
    - replace (- (x * x) * (1 + t * t)) with (- (x * x) + - (x * x) * (t * t)) by ring.
      rewrite exp_plus. pose proof (exp_pos (- (x * x))).
      assert (E : exp (- (x * x) * (t * t)) <= 1).
      { rewrite <- exp_0. destruct (Req_dec (x * x * (t * t)) 0) as [E0 | E0].
        - apply Req_le. f_equal. lra.
        - apply Rlt_le, exp_increasing. nra. }
      pose proof (exp_pos (- (x * x) * (t * t))).
      assert (exp (- (x * x)) * exp (- (x * x) * (t * t)) <= exp (- (x * x))) by nra.
      apply Rle_trans with (exp (- (x * x)) * exp (- (x * x) * (t * t)) / 1).
      + unfold Rdiv. apply Rmult_le_compat_l; [nra |].
        apply Rinv_le_contravar; nra.
      + lra. }
  split.
  - apply RInt_ge_0; [lra | apply gk_int | intros; apply K].
  - assert (H : RInt (gk x) 0 1 <= RInt (fun _ => gexp x) 0 1).
    { apply RInt_le; [lra | apply gk_int | apply ex_RInt_const | intros; apply K]. }
    assert (C : RInt (fun _ => gexp x) 0 1 = (1 - 0) * gexp x)
      by (apply (RInt_const (V := R_CompleteNormedModule))).
    rewrite C in H. unfold gB. lra.
Qed.

Lemma gA_nonneg : forall x, 0 <= x -> 0 <= gA x.
Proof.
  intros. apply RInt_ge_0; auto; [apply gexp_int |]. intros. apply Rlt_le, exp_pos.
Qed.

Lemma gA_odd : forall x, gA (- x) = - gA x.
Proof.
  intros x. unfold gA.
  assert (E : RInt (fun y => scal (- 1) (gexp (- 1 * y + 0))) 0 x = RInt gexp (- 1 * 0 + 0) (- 1 * x + 0)).
  { apply (RInt_comp_lin (V := R_CompleteNormedModule)). apply gexp_int. }
  replace (- 1 * 0 + 0) with 0 in E by ring. replace (- 1 * x + 0) with (- x) in E by ring.
  rewrite <- E.
  assert (E2 : RInt (fun y => scal (- 1) (gexp y)) 0 x = scal (- 1) (RInt gexp 0 x)).
  { apply (RInt_scal (V := R_CompleteNormedModule)). apply gexp_int. }
  replace (- RInt gexp 0 x) with (scal (- 1) (RInt gexp 0 x)) by (unfold scal; cbn; unfold mult; cbn; ring).
  rewrite <- E2. apply RInt_ext. intros t _. f_equal. unfold gexp. f_equal. ring.
Qed.

Lemma gA_sqrt : forall x, 0 <= x -> gA x = sqrt (PI / 4 - gB x).
Proof.
  intros x Hx. pose proof (gS_const x) as H. rewrite gS_0 in H. unfold gS in H.
  replace (PI / 4 - gB x) with (gA x * gA x) by lra. symmetry. apply sqrt_square. now apply gA_nonneg.
Qed.

Lemma gexp_lim : is_lim gexp p_infty 0.
Proof.
  unfold gexp. apply (is_lim_comp exp (fun t => - (t * t)) p_infty 0 m_infty).
  - apply is_lim_exp_m.
  - replace m_infty with (Rbar_opp p_infty) by reflexivity. apply is_lim_opp.
    apply (is_lim_mult (fun t => t) (fun t => t) p_infty p_infty p_infty); [apply is_lim_id | apply is_lim_id | exact I].
  - exists 0. intros; discriminate.
Qed.

Lemma gB_lim : is_lim gB p_infty 0.
Proof.
  apply (is_lim_le_le_loc (fun _ => 0) gexp).
  - exists 0. intros x _. apply gB_bounds.
  - apply is_lim_const.
  - apply gexp_lim.
Qed.

Lemma sqrt_quarter_pi : sqrt (PI / 4) = sqrt PI / 2.
Proof.
  pose proof PI_RGT_0. replace 2 with (sqrt (2 * 2)) at 1 by (apply sqrt_square; lra).
  rewrite <- sqrt_div_alt by lra. f_equal; lra.
Qed.

Lemma gA_lim : is_lim gA p_infty (sqrt PI / 2).
Proof.
  rewrite <- sqrt_quarter_pi.
  apply (is_lim_ext_loc (fun x => sqrt (PI / 4 - gB x))).
  { exists 0. intros x Hx. symmetry. apply gA_sqrt. lra. }
  apply (is_lim_comp_continuous (fun x => PI / 4 - gB x) sqrt p_infty (PI / 4)).
  - replace (Finite (PI / 4)) with (Finite (PI / 4 - 0)) by (f_equal; ring).
    apply (is_lim_minus' (fun _ => PI / 4) gB); [apply is_lim_const | apply gB_lim].
  - apply continuous_sqrt.
Qed.

Lemma gA_lim_m : is_lim gA m_infty (- (sqrt PI / 2)).
Proof.
  apply (is_lim_ext (fun x => - gA (- x))).
  { intros x. rewrite gA_odd. ring. }
  apply (is_lim_opp (fun x => gA (- x)) m_infty (sqrt PI / 2)).
  apply (is_lim_comp gA Ropp m_infty (sqrt PI / 2) p_infty).
  - apply gA_lim.
  - replace p_infty with (Rbar_opp m_infty) by reflexivity. apply is_lim_opp. apply is_lim_id.
  - exists 0. intros; discriminate.
Qed.

(** A primitive of the normal density *)
Definition cdf (m v x : R) : R := / sqrt PI * gA (/ sqrt (2 * v) * x + - m / sqrt (2 * v)).

Lemma cdf_derive : forall m v x, 0 < v -> is_derive (cdf m v) x (dnorm m v x).
Proof.
  intros m v x Hv. unfold cdf. pose proof PI_RGT_0.
  assert (P : 0 < sqrt PI) by (now apply sqrt_lt_R0).
  assert (Q : 0 < sqrt (2 * v)) by (apply sqrt_lt_R0; lra).
  set (u := / sqrt (2 * v)). set (w := - m / sqrt (2 * v)).
  replace (dnorm m v x) with (scal (/ sqrt PI) (scal u (gexp (u * x + w)))).
  - apply (is_derive_scal (fun x => gA (u * x + w)) x (/ sqrt PI)).
    apply (is_derive_comp gA (fun x => u * x + w)).
    + apply gA_derive.
    + auto_derive; [trivial |]. ring.
  - unfold dnorm, gexp, u, w, scal; cbn; unfold mult; cbn.
    replace (2 * PI * v) with (PI * (2 * v)) by ring. rewrite (sqrt_mult PI (2 * v)) by lra.
    replace (- ((/ sqrt (2 * v) * x + - m / sqrt (2 * v)) * (/ sqrt (2 * v) * x + - m / sqrt (2 * v))))
      with (- ((x - m) * ((x - m) * 1)) / (2 * v)).
    + field. lra.
    + replace (2 * v) with (sqrt (2 * v) * sqrt (2 * v)) at 1 by (apply sqrt_sqrt; lra).
      field. lra.
Qed.

Theorem dnorm_integral : forall m v, 0 < v ->
  is_RInt_gen (dnorm m v) (Rbar_locally m_infty) (Rbar_locally p_infty) 1.
Proof.
  intros m v Hv. pose proof PI_RGT_0.
  assert (P : 0 < sqrt PI) by (now apply sqrt_lt_R0).
  assert (Q : 0 < / sqrt (2 * v)) by (apply Rinv_0_lt_compat, sqrt_lt_R0; lra).
  assert (D : forall x, Derive (cdf m v) x = dnorm m v x).
  { intros x. apply is_derive_unique. now apply cdf_derive. }
  apply (is_RInt_gen_ext (Derive (cdf m v))).
  { apply filter_forall. intros ab x _. apply D. }
  assert (Lin : forall z l, (z = p_infty /\ l = p_infty) \/ (z = m_infty /\ l = m_infty) ->
    is_lim (fun x => / sqrt (2 * v) * x + - m / sqrt (2 * v)) z l).
  { intros z l Hz. replace l with (Rbar_plus l (- m / sqrt (2 * v))) by (destruct Hz as [[_ ->] | [_ ->]]; reflexivity).
    apply (is_lim_plus _ _ z l (- m / sqrt (2 * v))).
    - replace l with (Rbar_mult (/ sqrt (2 * v)) z).
      + apply is_lim_scal_l. apply is_lim_id.
      + destruct Hz as [[-> ->] | [-> ->]]; cbn; destruct (Rle_dec 0 (/ sqrt (2 * v))); try lra;
          destruct (Rle_lt_or_eq_dec _ _ _); auto; lra.
    - apply is_lim_const.
    - destruct Hz as [[_ ->] | [_ ->]]; reflexivity. }
  replace 1 with (/ sqrt PI * (sqrt PI / 2) - / sqrt PI * - (sqrt PI / 2)) by (field; lra).
  apply is_RInt_gen_Derive.
  - apply filter_forall. intros ab x _. eexists. now apply cdf_derive.
  - apply filter_forall. intros ab x _.
    apply (continuous_ext (dnorm m v)); [intros; now rewrite D |].
    apply (ex_derive_continuous (K := R_AbsRing) (V := R_NormedModule)). unfold dnorm. auto_derive. lra.
  - apply (is_lim_scal_l (fun x => gA (/ sqrt (2 * v) * x + - m / sqrt (2 * v))) (/ sqrt PI)
      m_infty (- (sqrt PI / 2))).
    apply (is_lim_comp gA (fun x => / sqrt (2 * v) * x + - m / sqrt (2 * v)) m_infty _ m_infty).
    + apply gA_lim_m.
    + apply Lin. auto.
    + exists 0. intros; discriminate.
  - apply (is_lim_scal_l (fun x => gA (/ sqrt (2 * v) * x + - m / sqrt (2 * v))) (/ sqrt PI)
      p_infty (sqrt PI / 2)).
    apply (is_lim_comp gA (fun x => / sqrt (2 * v) * x + - m / sqrt (2 * v)) p_infty _ p_infty).
    + apply gA_lim.
    + apply Lin. auto.
    + exists 0. intros; discriminate.
Qed.

(** ** Marginal likelihood *)

Lemma marginal_exact : forall ntree s2 rs, 0 < ntree -> 0 < s2 ->
  is_marginal_likelihood (1 / ntree) s2 rs (post_const ntree s2 rs).
Proof.
  intros ntree s2 rs Hn Hs. unfold is_marginal_likelihood.
  pose proof (post_var_pos ntree s2 rs Hn Hs) as Hv.
  pose proof (is_RInt_gen_scal (V := R_NormedModule) (Fa := Rbar_locally m_infty)
    (Fb := Rbar_locally p_infty) _ (post_const ntree s2 rs) _
    (dnorm_integral (post_mean ntree s2 rs) (post_var ntree s2 rs) Hv)) as G.
  match type of G with is_RInt_gen _ _ _ ?x =>
    replace x with (post_const ntree s2 rs) in G by (unfold scal; cbn; unfold mult; cbn; ring) end.
  revert G. apply is_RInt_gen_ext.
  apply filter_forall. intros ab x _. symmetry.
  rewrite (posterior_form ntree s2 rs x Hn Hs). reflexivity.
Qed.

Lemma ln_sqrt : forall x, 0 < x -> ln (sqrt x) = ln x / 2.
Proof.
  intros x Hx. pose proof (sqrt_lt_R0 x Hx).
  rewrite <- (sqrt_sqrt x) at 2 by lra. rewrite ln_mult by auto. lra.
Qed.

Lemma ln_post_const : forall ntree s2 rs, 0 < ntree -> 0 < s2 ->
  ln (post_const ntree s2 rs) =
  (ln ntree + ln s2 - ln (INR (length rs) + ntree * s2)) / 2
  - INR (length rs) * (ln (2 * PI * s2) / 2)
  - sumsq rs / s2 / 2
  + (rsum rs) ^ 2 / (s2 * (INR (length rs) + ntree * s2)) / 2.
Proof.
  intros ntree s2 rs Hn Hs. unfold post_const.
  pose proof (post_var_pos ntree s2 rs Hn Hs) as Hv.
  assert (Hn1 : 0 < 1 / ntree) by (apply Rdiv_lt_0_compat; lra).
  pose proof (sqrt_2pi_pos _ Hv) as Q1. pose proof (sqrt_2pi_pos _ Hn1) as Q2.
  pose proof (sqrt_2pi_pos _ Hs) as Q3. pose proof two_pi_pos as TP.
  pose proof (pos_INR (length rs)) as NN.
  assert (HD : 0 < INR (length rs) + ntree * s2).
  { pose proof (Rmult_lt_0_compat _ _ Hn Hs). lra. }
  assert (Ev : post_var ntree s2 rs = s2 / (INR (length rs) + ntree * s2)).
  { unfold post_var. field. lra. }
  pose proof (Rinv_0_lt_compat _ Q2). pose proof (Rinv_0_lt_compat _ Q3).
  assert (HP : 0 < (/ sqrt (2 * PI * s2)) ^ length rs) by (now apply pow_lt).
  rewrite !ln_mult; auto; try apply exp_pos; try (repeat apply Rmult_lt_0_compat; auto; fail).
  rewrite ln_exp, ln_Rinv by auto. rewrite ln_pow by auto. rewrite ln_Rinv by auto.
  rewrite !ln_sqrt; try (apply Rmult_lt_0_compat; auto; lra).
  rewrite !(ln_mult (2 * PI)) by auto.
  assert (E1 : ln (1 / ntree) = - ln ntree).
  { replace (1 / ntree) with (/ ntree) by (field; lra). now apply ln_Rinv. }
  assert (E2 : ln (post_var ntree s2 rs) = ln s2 - ln (INR (length rs) + ntree * s2)).
  { rewrite Ev. unfold Rdiv. rewrite ln_mult by (auto; now apply Rinv_0_lt_compat).
    rewrite ln_Rinv by auto. ring. }
  rewrite E1, E2. unfold post_mean. rewrite Ev. pose proof PI_RGT_0.
  rewrite (ln_mult 2 PI) by lra. field. lra.
  all: lra.
Qed.

Lemma rsum_perm : forall l l', Permutation.Permutation l l' -> rsum l = rsum l'.
Proof. intros l l' H. unfold rsum. induction H; cbn in *; try lra. Qed.

Lemma sumsq_perm : forall l l', Permutation.Permutation l l' -> sumsq l = sumsq l'.
Proof. intros l l' H. unfold sumsq. apply rsum_perm. now apply Permutation.Permutation_map. Qed.

Lemma rsum_app' : forall l l', rsum (l ++ l') = rsum l + rsum l'.
Proof. unfold rsum. induction l; intros; cbn; [| rewrite IHl]; lra. Qed.

(** the logarithm of the ratio of marginal likelihoods, as written in the code *)
Lemma log_ratio_exact : forall ntree s2 rl rr rt, 0 < ntree -> 0 < s2 ->
  Permutation.Permutation rt (rl ++ rr) ->
  let smu := 1 / ntree in
  let nl := INR (length rl) in let nr := INR (length rr) in
  let l := s2 + nl * smu in let r := s2 + nr * smu in let t := s2 + (nl + nr) * smu in
  ln (s2 * t / (l * r)) / 2 +
  smu / (2 * s2) * (rsum rl * rsum rl / l + rsum rr * rsum rr / r -
                    (rsum rl + rsum rr) * (rsum rl + rsum rr) / t) =
  ln (post_const ntree s2 rl * post_const ntree s2 rr / post_const ntree s2 rt).
Proof.
  intros ntree s2 rl rr rt Hn Hs P smu nl nr l r t.
  pose proof (post_const_pos ntree s2 rl Hn Hs). pose proof (post_const_pos ntree s2 rr Hn Hs).
  pose proof (post_const_pos ntree s2 rt Hn Hs).
  assert (LD : forall a b c, 0 < a -> 0 < b -> 0 < c -> ln (a * b / c) = ln a + ln b - ln c).
  { intros x y z Hx Hy Hz. unfold Rdiv. rewrite ln_mult, ln_Rinv, ln_mult; auto; try lra;
      [now apply Rmult_lt_0_compat | now apply Rinv_0_lt_compat]. }
  rewrite (LD (post_const ntree s2 rl)) by auto.
  rewrite !ln_post_const by auto.
  rewrite (rsum_perm _ _ P), (sumsq_perm _ _ P), (Permutation.Permutation_length P).
  unfold sumsq. rewrite map_app, !rsum_app', app_length, plus_INR.
  fold (sumsq rl) (sumsq rr). fold nl nr.
  assert (Nl : 0 <= nl) by apply pos_INR. assert (Nr : 0 <= nr) by apply pos_INR.
  pose proof (Rmult_lt_0_compat _ _ Hn Hs) as Hns.
  assert (Dl : 0 < nl + ntree * s2) by lra. assert (Dr : 0 < nr + ntree * s2) by lra.
  assert (Dt : 0 < nl + nr + ntree * s2) by lra.
  assert (El : l = (nl + ntree * s2) / ntree) by (unfold l, smu; field; lra).
  assert (Er : r = (nr + ntree * s2) / ntree) by (unfold r, smu; field; lra).
  assert (Et : t = (nl + nr + ntree * s2) / ntree) by (unfold t, smu; field; lra).
  assert (L : ln (s2 * t / (l * r)) =
    ln ntree + ln s2 + ln (nl + nr + ntree * s2) - ln (nl + ntree * s2) - ln (nr + ntree * s2)).
  { rewrite El, Er, Et.
    replace (s2 * ((nl + nr + ntree * s2) / ntree) /
       ((nl + ntree * s2) / ntree * ((nr + ntree * s2) / ntree))) with
      (ntree * s2 * (nl + nr + ntree * s2) * / (nl + ntree * s2) * / (nr + ntree * s2)).
    2: { field. lra. }
    pose proof (Rinv_0_lt_compat _ Dl). pose proof (Rinv_0_lt_compat _ Dr).
    rewrite !ln_mult by (repeat apply Rmult_lt_0_compat; auto). rewrite !ln_Rinv by auto. ring. }
  rewrite L, El, Er, Et. unfold smu. field. lra.
Qed.
