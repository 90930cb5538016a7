(** The posterior of a leaf with normal prior and normal errors. *)
From Coq Require Import ZArith List Reals Lra Lia.
From Coquelicot Require Import Coquelicot.
From Verif Require Import SpecPosterior.
Import ListNotations.
Open Scope R_scope.

Definition sumsq (l : list R) : R := rsum (map (fun r => r * r) l).

Lemma two_pi_pos : 0 < 2 * PI.
Proof. pose proof PI_RGT_0. lra. Qed.

Lemma sqrt_2pi_pos : forall v, 0 < v -> 0 < sqrt (2 * PI * v).
Proof. intros. apply sqrt_lt_R0. apply Rmult_lt_0_compat; auto. apply two_pi_pos. Qed.

Lemma dnorm_pos : forall m v x, 0 < v -> 0 < dnorm m v x.
Proof.
  intros. unfold dnorm. apply Rmult_lt_0_compat; [| apply exp_pos].
  apply Rinv_0_lt_compat. now apply sqrt_2pi_pos.
Qed.

Lemma likelihood_form : forall s2 mu rs, 0 < s2 ->
  likelihood s2 mu rs = (/ sqrt (2 * PI * s2)) ^ length rs *
    exp (- (sumsq rs - 2 * mu * rsum rs + INR (length rs) * mu ^ 2) / (2 * s2)).
Proof.
  intros s2 mu rs Hs. pose proof (sqrt_2pi_pos s2 Hs).
  induction rs as [| r rs IH].
  - cbn [likelihood fold_right length pow INR sumsq map rsum].
    replace (- (0 - 2 * mu * 0 + 0 * (mu * (mu * 1))) / (2 * s2)) with 0 by (field; lra).
    rewrite exp_0. ring.
  - unfold likelihood. cbn [fold_right]. fold (likelihood s2 mu rs). rewrite IH. unfold dnorm.
    cbn [length]. rewrite S_INR. rewrite <- (tech_pow_Rmult _ (length rs)).
    unfold sumsq. cbn [map rsum fold_right]. fold (rsum (map (fun r => r * r) rs)) (rsum rs).
    fold (sumsq rs).
    set (K := (/ sqrt (2 * PI * s2)) ^ length rs).
    transitivity (/ sqrt (2 * PI * s2) * K *
      (exp (- (r - mu) ^ 2 / (2 * s2)) *
       exp (- (sumsq rs - 2 * mu * rsum rs + INR (length rs) * mu ^ 2) / (2 * s2)))); [ring |].
    rewrite <- exp_plus. f_equal. f_equal. field. lra.
Qed.

(** posterior variance, mean and normalisation *)
Definition post_var (ntree s2 : R) (rs : list R) : R := 1 / (INR (length rs) / s2 + ntree).
Definition post_mean (ntree s2 : R) (rs : list R) : R := rsum rs * (post_var ntree s2 rs / s2).
Definition post_const (ntree s2 : R) (rs : list R) : R :=
  / sqrt (2 * PI * (1 / ntree)) * sqrt (2 * PI * post_var ntree s2 rs) *
  (/ sqrt (2 * PI * s2)) ^ length rs *
  exp (- (sumsq rs / s2 - (post_mean ntree s2 rs) ^ 2 / post_var ntree s2 rs) / 2).

Lemma post_var_pos : forall ntree s2 rs, 0 < ntree -> 0 < s2 -> 0 < post_var ntree s2 rs.
Proof.
  intros. unfold post_var, Rdiv. rewrite Rmult_1_l. apply Rinv_0_lt_compat.
  pose proof (pos_INR (length rs)). pose proof (Rinv_0_lt_compat _ H0).
  pose proof (Rmult_le_pos _ (/ s2) H1 ltac:(lra)). lra.
Qed.

Lemma post_const_pos : forall ntree s2 rs, 0 < ntree -> 0 < s2 -> 0 < post_const ntree s2 rs.
Proof.
  intros. unfold post_const.
  assert (0 < 1 / ntree) by (apply Rdiv_lt_0_compat; lra).
  repeat apply Rmult_lt_0_compat; try apply exp_pos.
  - apply Rinv_0_lt_compat. now apply sqrt_2pi_pos.
  - apply sqrt_2pi_pos. now apply post_var_pos.
  - apply pow_lt. apply Rinv_0_lt_compat. now apply sqrt_2pi_pos.
Qed.

Lemma posterior_form : forall ntree s2 rs mu, 0 < ntree -> 0 < s2 ->
  dnorm 0 (1 / ntree) mu * likelihood s2 mu rs =
  post_const ntree s2 rs * dnorm (post_mean ntree s2 rs) (post_var ntree s2 rs) mu.
Proof.
  intros ntree s2 rs mu Hn Hs. rewrite likelihood_form by auto.
  pose proof (post_var_pos ntree s2 rs Hn Hs) as Hv.
  unfold dnorm, post_const.
  pose proof (sqrt_2pi_pos _ Hv) as Hq.
  set (K := (/ sqrt (2 * PI * s2)) ^ length rs).
  set (A := / sqrt (2 * PI * (1 / ntree))).
  set (q := sqrt (2 * PI * post_var ntree s2 rs)) in *.
  transitivity (A * K * (exp (- (mu - 0) ^ 2 / (2 * (1 / ntree))) *
     exp (- (sumsq rs - 2 * mu * rsum rs + INR (length rs) * mu ^ 2) / (2 * s2)))); [ring |].
  transitivity (A * K *
     (exp (- (sumsq rs / s2 - post_mean ntree s2 rs ^ 2 / post_var ntree s2 rs) / 2) *
      exp (- (mu - post_mean ntree s2 rs) ^ 2 / (2 * post_var ntree s2 rs)))).
  2: { field. lra. }
  rewrite <- !exp_plus. f_equal. f_equal.
  unfold post_mean. unfold post_var in *. set (N := INR (length rs)) in *.
  assert (0 < N / s2 + ntree).
  { pose proof (pos_INR (length rs)). fold N in H. pose proof (Rinv_0_lt_compat _ Hs).
    pose proof (Rmult_le_pos N (/ s2) H ltac:(lra)). unfold Rdiv. lra. }
  assert (0 < N + ntree * s2).
  { replace (N + ntree * s2) with (s2 * (N / s2 + ntree)) by (field; lra).
    now apply Rmult_lt_0_compat. }
  field. lra.
Qed.

Lemma posterior_exact : forall ntree s2 rs, 0 < ntree -> 0 < s2 ->
  is_posterior (1 / ntree) s2 rs (post_mean ntree s2 rs) (post_var ntree s2 rs).
Proof.
  intros. split; [now apply post_var_pos |]. exists (post_const ntree s2 rs).
  split; [now apply post_const_pos |]. intros. now apply posterior_form.
Qed.

(** The specification determines the mean and the variance. *)
Lemma posterior_unique : forall pv s2 rs m v m' v',
  is_posterior pv s2 rs m v -> is_posterior pv s2 rs m' v' -> m = m' /\ v = v'.
Proof.
  intros pv s2 rs m v m' v' (Hv & C & HC & E) (Hv' & C' & HC' & E').
  pose proof (sqrt_2pi_pos v Hv) as Q. pose proof (sqrt_2pi_pos v' Hv') as Q'.
  set (K := ln C + ln (/ sqrt (2 * PI * v))). set (K' := ln C' + ln (/ sqrt (2 * PI * v'))).
  assert (L : forall x, K + - (x - m) ^ 2 / (2 * v) = K' + - (x - m') ^ 2 / (2 * v')).
  { intros x. specialize (E x). rewrite E' in E. unfold dnorm in E.
    apply (f_equal ln) in E. rewrite <- !Rmult_assoc in E.
    rewrite !ln_mult in E; try apply exp_pos;
      try (apply Rmult_lt_0_compat; [assumption | now apply Rinv_0_lt_compat]);
      try assumption; try now apply Rinv_0_lt_compat.
    rewrite !ln_exp in E. unfold K, K'. symmetry. exact E. }
  pose proof (L 0) as L0. pose proof (L 1) as L1. pose proof (L (-1)) as L2.
  set (i := / v). set (i' := / v').
  assert (Ei : forall x, - (x - m) ^ 2 / (2 * v) = - (x - m) ^ 2 * i / 2) by (intros; unfold i; field; lra).
  assert (Ei' : forall x, - (x - m') ^ 2 / (2 * v') = - (x - m') ^ 2 * i' / 2) by (intros; unfold i'; field; lra).
  rewrite !Ei, !Ei' in *.
  assert (A : i = i') by nra.
  assert (Ev : v = v') by (unfold i, i' in A; rewrite <- (Rinv_inv v), <- (Rinv_inv v'); congruence).
  assert (Pi : 0 < i) by (apply Rinv_0_lt_compat; auto).
  split; auto. rewrite <- A in *. assert (i * (m - m') = 0) by nra.
  apply Rmult_integral in H. lra.
Qed.
