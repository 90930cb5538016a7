(** The inverse gamma distribution: existence of the integrals, change of
    variables, harmonic mean. *)
From Coq Require Import ZArith List Bool Reals Lra Lia Psatz.
From Coquelicot Require Import Coquelicot.
From Verif Require Import Base SpecPrior.
Import ListNotations.
Open Scope R_scope.

(** ** Change of variables u = b / t *)

Lemma gamma_density_continuous a u : 0 < u -> continuous (gamma_density a) u.
Proof.
  intros H. apply (ex_derive_continuous (K := R_AbsRing) (V := R_NormedModule)).
  unfold gamma_density, Rpower. auto_derive. lra.
Qed.

Lemma invgamma_density_continuous a b u : 0 < u -> continuous (invgamma_density a b) u.
Proof.
  intros H. apply (ex_derive_continuous (K := R_AbsRing) (V := R_NormedModule)).
  unfold invgamma_density, Rpower. auto_derive. repeat split; lra.
Qed.

Lemma change_density a b t : 0 < b -> 0 < t ->
  (b / (t * t)) * gamma_density a (b / t) = Rpower b a * invgamma_density a b t.
Proof.
  intros Hb Ht. unfold gamma_density, invgamma_density.
  rewrite <- !Rmult_assoc. f_equal.
  assert (E : b / (t * t) = Rpower b 1 * Rpower t (Ropp 2)).
  { rewrite Rpower_1 by lra. rewrite Rpower_Ropp. replace 2 with (INR 2) by (cbn; lra).
    rewrite Rpower_pow by lra. cbn [pow]. unfold Rdiv. now rewrite Rmult_1_r. }
  rewrite E. unfold Rpower. rewrite <- !exp_plus. f_equal.
  unfold Rdiv. rewrite ln_mult, ln_Rinv by (auto using Rinv_0_lt_compat). ring.
Qed.

Lemma is_RInt_change a b s t : 0 < b -> 0 < s -> 0 < t ->
  is_RInt (invgamma_density a b) s t (Rpower b (- a) * RInt (gamma_density a) (b / t) (b / s)).
Proof.
  intros Hb Hs Ht.
  assert (P : forall x, Rmin s t <= x <= Rmax s t -> 0 < x).
  { intros x [H _]. eapply Rlt_le_trans; [| exact H]. now apply Rmin_glb_lt. }
  assert (G : is_RInt (fun y => scal (- b / (y * y)) (gamma_density a (b / y))) s t
                (RInt (gamma_density a) (b / s) (b / t))).
  { apply (is_RInt_comp (V := R_CompleteNormedModule) (gamma_density a) (fun y => b / y) (fun y => - b / (y * y))).
    - intros x Hx. apply P in Hx. apply gamma_density_continuous. now apply Rdiv_lt_0_compat.
    - intros x Hx. apply P in Hx. split.
      + auto_derive; [lra |]. field. lra.
      + apply (ex_derive_continuous (K := R_AbsRing) (V := R_NormedModule)). auto_derive. nra. }
  apply (is_RInt_scal _ s t (- Rpower b (- a))) in G.
  replace (Rpower b (- a) * RInt (gamma_density a) (b / t) (b / s))
    with (scal (- Rpower b (- a)) (RInt (gamma_density a) (b / s) (b / t))).
  - revert G. apply is_RInt_ext. intros x Hx. cbn in Hx. assert (0 < x) by (apply P; lra).
    unfold scal; cbn; unfold mult; cbn.
    replace (- Rpower b (- a) * (- b / (x * x) * gamma_density a (b / x)))
      with (Rpower b (- a) * (b / (x * x) * gamma_density a (b / x))) by (field; nra).
    rewrite change_density by assumption. rewrite <- Rmult_assoc, <- Rpower_plus.
    replace (- a + a) with 0 by ring. rewrite Rpower_O by lra. ring.
  - rewrite <- (opp_RInt_swap (V := R_CompleteNormedModule) (gamma_density a)).
    + unfold scal, opp; cbn; unfold mult; cbn. ring.
    + apply (ex_RInt_continuous (V := R_CompleteNormedModule)). intros z Hz. apply gamma_density_continuous.
      eapply Rlt_le_trans; [| apply Hz]. apply Rmin_glb_lt; now apply Rdiv_lt_0_compat.
Qed.

Lemma change_gen a b (Fa Fb Ga Gb : (R -> Prop) -> Prop) {FFa : Filter Fa} {FFb : Filter Fb}
    {GGa : Filter Ga} {GGb : Filter Gb} l :
  0 < b -> Fa (fun t => 0 < t) -> Fb (fun t => 0 < t) ->
  filterlim (fun t => b / t) Fa Gb -> filterlim (fun t => b / t) Fb Ga ->
  is_RInt_gen (gamma_density a) Ga Gb l ->
  is_RInt_gen (invgamma_density a b) Fa Fb (Rpower b (- a) * l).
Proof.
  intros Hb Pa Pb La Lb G P HP.
  assert (HP' : locally l (fun y => P (Rpower b (- a) * y))).
  { apply (continuous_scal_r (K := R_AbsRing) (V := R_NormedModule) (Rpower b (- a)) (fun y => y) l); [apply continuous_id | exact HP]. }
  specialize (G _ HP'). unfold filtermapi in *.
  destruct G as [Q1 Q2 H1 H2 H].
  pose proof (La _ H2) as La'. pose proof (Lb _ H1) as Lb'. unfold filtermap in La', Lb'.
  refine (Filter_prod _ _ _ (fun t => 0 < t /\ Q2 (b / t)) (fun t => 0 < t /\ Q1 (b / t)) _ _ _).
  - now apply filter_and.
  - now apply filter_and.
  - intros s t [Hs Qs] [Ht Qt]. destruct (H (b / t) (b / s) Qt Qs) as (y & Iy & Py).
    cbn [fst snd] in *. exists (Rpower b (- a) * y). split; [| exact Py].
    replace y with (RInt (gamma_density a) (b / t) (b / s)) by (now apply is_RInt_unique).
    now apply is_RInt_change.
Qed.

Lemma inv_at_right b : 0 < b -> filterlim (fun t => b / t) (at_right 0) (Rbar_locally p_infty).
Proof.
  intros Hb P [M HM]. unfold filtermap, at_right, within.
  assert (Hd : 0 < b / (Rabs M + 1)) by (apply Rdiv_lt_0_compat; [exact Hb | pose proof (Rabs_pos M); lra]).
  exists (mkposreal _ Hd). intros t Bt Ht. apply HM.
  change (Rabs (minus t 0) < b / (Rabs M + 1)) in Bt. unfold minus, plus, opp in Bt; cbn in Bt.
  rewrite Ropp_0, Rplus_0_r, Rabs_pos_eq in Bt by lra.
  pose proof (Rabs_pos M). pose proof (Rle_abs M).
  apply (Rle_lt_trans _ (Rabs M)); [lra |].
  apply (Rmult_lt_reg_r t); [exact Ht |]. unfold Rdiv. rewrite Rmult_assoc, Rinv_l, Rmult_1_r by lra.
  apply (Rmult_lt_compat_r (Rabs M + 1)) in Bt; [| lra].
  unfold Rdiv in Bt. rewrite Rmult_assoc, Rinv_l, Rmult_1_r in Bt by lra. nra.
Qed.

Lemma inv_at_infty b : 0 < b -> filterlim (fun t => b / t) (Rbar_locally p_infty) (at_right 0).
Proof.
  intros Hb P [e HP]. unfold filtermap.
  exists (b / e). intros t Ht.
  assert (0 < b / e) by (apply Rdiv_lt_0_compat; [exact Hb | apply cond_pos]).
  assert (0 < b / t) by (apply Rdiv_lt_0_compat; lra).
  apply HP; [| assumption].
  change (Rabs (minus (b / t) 0) < e). unfold minus, plus, opp; cbn.
  rewrite Ropp_0, Rplus_0_r, Rabs_pos_eq by lra.
  pose proof (cond_pos e).
  apply (Rmult_lt_reg_r t); [lra |]. unfold Rdiv. rewrite Rmult_assoc, Rinv_l, Rmult_1_r by lra.
  apply (Rmult_lt_compat_r e) in Ht; [| assumption].
  unfold Rdiv in Ht. rewrite Rmult_assoc, Rinv_l, Rmult_1_r in Ht by lra. lra.
Qed.

Lemma at_right_pos : at_right 0 (fun t => 0 < t).
Proof. exists (mkposreal 1 Rlt_0_1). auto. Qed.

Lemma infty_pos : Rbar_locally p_infty (fun t => 0 < t).
Proof. exists 0. auto. Qed.

Lemma change_positive a b l : 0 < b -> integral_positive (gamma_density a) l ->
  integral_positive (invgamma_density a b) (Rpower b (- a) * l).
Proof.
  intros Hb. apply (change_gen a b _ _ (at_right 0) (Rbar_locally p_infty)); auto using inv_at_right, inv_at_infty, at_right_pos, infty_pos.
Qed.

Lemma change_below a b x l : 0 < b -> 0 < x -> integral_above (gamma_density a) (b / x) l ->
  integral_below (invgamma_density a b) x (Rpower b (- a) * l).
Proof.
  intros Hb Hx. apply (change_gen a b _ _ (at_point (b / x)) (Rbar_locally p_infty)); auto using inv_at_right, at_right_pos.
  intros P HP. exact HP.
Qed.

(** The quantiles of the inverse gamma distribution *)
Lemma invgamma_quantile a b q x : 0 < b -> is_upper_quantile (gamma_density a) q x ->
  is_quantile (invgamma_density a b) q (b / x).
Proof.
  intros Hb (Hx & total & Ht & T & A). split; [now apply Rdiv_lt_0_compat |].
  exists (Rpower b (- a) * total). split; [| split].
  - apply Rmult_lt_0_compat; [apply exp_pos | exact Ht].
  - now apply change_positive.
  - replace (q * (Rpower b (- a) * total)) with (Rpower b (- a) * (q * total)) by ring.
    apply change_below; [exact Hb | now apply Rdiv_lt_0_compat |].
    replace (b / (b / x)) with x by (field; lra). exact A.
Qed.

(** ** The integral of the gamma density exists *)

Lemma monotone_integral (f : R -> R) M :
  (forall t, 1 <= t -> continuous f t) -> (forall t, 1 <= t -> 0 < f t) ->
  (forall y, 1 <= y -> RInt f 1 y <= M) ->
  exists l, 0 < l /\ is_RInt_gen f (at_point 1) (Rbar_locally p_infty) l.
Proof.
  intros C P B.
  assert (E : forall u v, 1 <= u -> 1 <= v -> ex_RInt f u v).
  { intros u v Hu Hv. apply (ex_RInt_continuous (V := R_CompleteNormedModule)). intros z Hz. apply C.
    eapply Rle_trans; [| apply Hz]. now apply Rmin_glb. }
  assert (Mo : forall u v, 1 <= u <= v -> RInt f 1 u <= RInt f 1 v).
  { intros u v H. rewrite <- (RInt_Chasles (V := R_CompleteNormedModule) f 1 u v) by (apply E; lra).
    assert (0 <= RInt f u v).
    { apply RInt_ge_0; [lra | apply E; lra |]. intros x Hx. apply Rlt_le, P. lra. }
    change (RInt f 1 u <= RInt f 1 u + RInt f u v). lra. }
  destruct (completeness (fun r => exists y, 1 <= y /\ r = RInt f 1 y)) as [l [U L]].
  - exists M. intros r (y & Hy & ->). now apply B.
  - exists (RInt f 1 1). exists 1. split; [lra | reflexivity].
  - exists l. split.
    + apply (Rlt_le_trans _ (RInt f 1 2)).
      * apply RInt_gt_0; [lra | intros x Hx; apply P; lra | intros x Hx; apply C; lra].
      * apply U. exists 2. split; [lra | reflexivity].
    + intros Q [e He].
      assert (K : exists y, 1 <= y /\ l - e < RInt f 1 y).
      { destruct (Classical_Prop.classic (exists y, 1 <= y /\ l - e < RInt f 1 y)) as [K | K]; [exact K |].
        exfalso. assert (G : l <= l - e).
        { apply L. intros r (y & Hy & ->). apply Rnot_lt_le. intros N. apply K. now exists y. }
        pose proof (cond_pos e). lra. }
      destruct K as (y0 & Hy0 & K).
      refine (Filter_prod _ _ _ (fun s => s = 1) (fun t => y0 < t) _ _ _); [reflexivity | now exists y0 |].
      intros s t -> Ht. cbn [fst snd]. exists (RInt f 1 t). split.
      * apply (RInt_correct (V := R_CompleteNormedModule)). apply E; lra.
      * apply He. change (Rabs (RInt f 1 t + - l) < e).
        pose proof (Mo y0 t ltac:(lra)).
        assert (RInt f 1 t <= l) by (apply U; exists t; split; [lra | reflexivity]).
        apply Rabs_def1; lra.
Qed.

Lemma gamma_density_pos a t : 0 < gamma_density a t.
Proof. unfold gamma_density. apply Rmult_lt_0_compat; apply exp_pos. Qed.
Lemma invgamma_density_pos a b t : 0 < invgamma_density a b t.
Proof. unfold invgamma_density. apply Rmult_lt_0_compat; apply exp_pos. Qed.

(** logarithm below lines of any slope *)
Lemma ln_line k u : 0 < k -> 0 < u -> ln u <= u / k + ln k.
Proof.
  intros Hk Hu.
  assert (H : 0 < u / k) by (now apply Rdiv_lt_0_compat).
  assert (ln (u / k) <= u / k).
  { pose proof (exp_ineq1_le (ln (u / k))) as Q. rewrite exp_ln in Q by exact H. lra. }
  replace (ln u) with (ln (u / k) + ln k); [lra |].
  rewrite <- ln_mult by assumption. f_equal. field. lra.
Qed.

Lemma gamma_above a : exists l, 0 < l /\ integral_above (gamma_density a) 1 l.
Proof.
  set (c := Rabs (a - 1)). set (k := 2 * c + 1).
  assert (Hc : 0 <= c) by apply Rabs_pos.
  set (A := exp (c * ln k)). pose proof (exp_pos (c * ln k)) as HA. fold A in HA.
  assert (D : forall u, 1 <= u -> gamma_density a u <= A * exp (- (u / 2))).
  { intros u Hu. unfold gamma_density, Rpower, A. rewrite <- !exp_plus. 
    assert (L0 : 0 <= ln u) by (rewrite <- ln_1; apply ln_le; lra).
    assert (L1 : ln u <= u / k + ln k) by (apply ln_line; unfold k; lra).
    assert (L2 : (a - 1) * ln u <= c * ln u) by (apply Rmult_le_compat_r; [exact L0 | apply Rle_abs]).
    assert (L3 : c * ln u <= c * (u / k + ln k)) by (now apply Rmult_le_compat_l).
    assert (L4 : c * (u / k) <= u / 2).
    { unfold k. apply (Rmult_le_reg_r (2 * c + 1)); [lra |].
      replace (c * (u / (2 * c + 1)) * (2 * c + 1)) with (c * u) by (field; lra). nra. }
    destruct (Rle_lt_or_eq_dec ((a - 1) * ln u + - u) (c * ln k + - (u / 2)) ltac:(lra)) as [L | L].
    - apply Rlt_le, exp_increasing. exact L.
    - rewrite L. lra. }
  assert (I : forall y, is_RInt (fun u => A * exp (- (u / 2))) 1 y
                (- 2 * A * exp (- (y / 2)) - - 2 * A * exp (- (1 / 2)))).
  { intros y. apply (is_RInt_derive (V := R_CompleteNormedModule) (fun u => - 2 * A * exp (- (u / 2)))).
    - intros x _. auto_derive; [trivial |]. change (x * / 2) with (x / 2). lra.
    - intros x _. apply (ex_derive_continuous (K := R_AbsRing) (V := R_NormedModule)). auto_derive. trivial. }
  apply (monotone_integral _ (2 * A * exp (- (1 / 2)))).
  - intros t Ht. apply gamma_density_continuous. lra.
  - intros. apply gamma_density_pos.
  - intros y Hy. apply (Rle_trans _ (RInt (fun u => A * exp (- (u / 2))) 1 y)).
    + apply RInt_le; [exact Hy | | |].
      * apply (ex_RInt_continuous (V := R_CompleteNormedModule)). intros z Hz. apply gamma_density_continuous.
        rewrite Rmin_left in Hz by exact Hy. lra.
      * eexists. apply I.
      * intros x Hx. apply D. lra.
    + rewrite (is_RInt_unique _ _ _ _ (I y)). pose proof (exp_pos (- (y / 2))). nra.
Qed.

Lemma gamma_below a : 0 < a -> exists l, 0 < l /\ integral_below (gamma_density a) 1 l.
Proof.
  intros Ha.
  assert (I : forall y, 1 <= y -> is_RInt (fun u => Rpower u (- a - 1)) 1 y
                (- / a * Rpower y (- a) - - / a * Rpower 1 (- a))).
  { intros y Hy. apply (is_RInt_derive (V := R_CompleteNormedModule) (fun u => - / a * Rpower u (- a))).
    - intros x Hx. rewrite Rmin_left in Hx by exact Hy.
      unfold Rpower. auto_derive; [lra |].
      replace ((- a - 1) * ln x) with (- a * ln x + - ln x) by ring.
      rewrite exp_plus, exp_Ropp, exp_ln by lra. field. lra.
    - intros x Hx. rewrite Rmin_left in Hx by exact Hy.
      apply (ex_derive_continuous (K := R_AbsRing) (V := R_NormedModule)). unfold Rpower. auto_derive. lra. }
  destruct (monotone_integral (invgamma_density a 1) (/ a)) as (l & Hl & L).
  - intros t Ht. apply invgamma_density_continuous. lra.
  - intros. apply invgamma_density_pos.
  - intros y Hy. apply (Rle_trans _ (RInt (fun u => Rpower u (- a - 1)) 1 y)).
    + apply RInt_le; [exact Hy | | |].
      * apply (ex_RInt_continuous (V := R_CompleteNormedModule)). intros z Hz. apply invgamma_density_continuous.
        rewrite Rmin_left in Hz by exact Hy. apply (Rlt_le_trans 0 1 z Rlt_0_1). apply Hz.
      * eexists. now apply I.
      * intros x Hx. unfold invgamma_density. rewrite <- (Rmult_1_r (Rpower x (- a - 1))) at 2.
        apply Rmult_le_compat_l; [apply Rlt_le, exp_pos |].
        apply (Rle_trans _ (exp 0)); [| rewrite exp_0; lra]. apply Rlt_le, exp_increasing.
        assert (0 < 1 / x) by (apply Rdiv_lt_0_compat; lra). lra.
    + rewrite (is_RInt_unique _ _ _ _ (I y Hy)).
      assert (E : Rpower 1 (- a) = 1) by (unfold Rpower; rewrite ln_1, Rmult_0_r; apply exp_0).
      rewrite E. assert (Q : 0 < / a * Rpower y (- a)).
      { apply Rmult_lt_0_compat; [now apply Rinv_0_lt_compat | apply exp_pos]. }
      change (- / a * Rpower y (- a) - - / a * 1 <= / a). lra.
  - exists l. split; [exact Hl |]. intros P HP. specialize (L P HP). unfold filtermapi in *.
    destruct L as [Q1 Q2 H1 H2 H].
    refine (Filter_prod _ _ _ (fun s => 0 < s /\ Q2 (1 / s)) (fun t => t = 1) _ _ _).
    + apply filter_and; [apply at_right_pos |]. exact (inv_at_right 1 Rlt_0_1 _ H2).
    + reflexivity.
    + intros s t [Hs Qs] ->. destruct (H 1 (1 / s) H1 Qs) as (y & Iy & Py). cbn [fst snd] in *.
      exists y. split; [| exact Py].
      assert (Hs' : 0 < 1 / s) by (apply Rdiv_lt_0_compat; lra).
      pose proof (is_RInt_change a 1 1 (1 / s) Rlt_0_1 Rlt_0_1 Hs') as J.
      apply (is_RInt_unique (V := R_CompleteNormedModule)) in J.
      apply (is_RInt_unique (V := R_CompleteNormedModule)) in Iy. rewrite Iy in J.
      assert (E : Rpower 1 (- a) = 1) by (unfold Rpower; rewrite ln_1, Rmult_0_r; apply exp_0).
      rewrite E, Rmult_1_l in J. replace (1 / (1 / s)) with s in J by (field; lra).
      replace (1 / 1) with 1 in J by field. rewrite J.
      apply (RInt_correct (V := R_CompleteNormedModule)).
      apply (ex_RInt_continuous (V := R_CompleteNormedModule)). intros z Hz. apply gamma_density_continuous.
      eapply Rlt_le_trans; [| apply Hz]. apply Rmin_glb_lt; lra.
Qed.

Lemma gamma_integral a : 0 < a -> exists l, 0 < l /\ integral_positive (gamma_density a) l.
Proof.
  intros Ha. destruct (gamma_below a Ha) as (l1 & H1 & I1), (gamma_above a) as (l2 & H2 & I2).
  exists (l1 + l2). split; [lra |]. exact (is_RInt_gen_Chasles (gamma_density a) 1 l1 l2 I1 I2).
Qed.

Lemma invgamma_integral a b : 0 < a -> 0 < b -> exists l, 0 < l /\ integral_positive (invgamma_density a b) l.
Proof.
  intros Ha Hb. destruct (gamma_integral a Ha) as (l & Hl & I). exists (Rpower b (- a) * l).
  split; [apply Rmult_lt_0_compat; [apply exp_pos | exact Hl] | now apply change_positive].
Qed.

(** ** Harmonic mean *)

Definition primitive (a b t : R) : R := Rpower t (- a) * exp (- (b / t)).

Lemma primitive_derive a b t : 0 < t ->
  is_derive (primitive a b) t (b * (invgamma_density a b t / t) - a * invgamma_density a b t).
Proof.
  intros Ht. unfold primitive, invgamma_density, Rpower. auto_derive; [split; lra |].
  assert (E : exp ((- a - 1) * ln t) = exp (- a * ln t) / t).
  { replace ((- a - 1) * ln t) with (- a * ln t + - ln t) by ring.
    rewrite exp_plus, exp_Ropp, exp_ln by lra. reflexivity. }
  rewrite E. change (b * / t) with (b / t).
  generalize (exp (- a * ln t)) (exp (- (b / t))). intros u v. field. lra.
Qed.

Lemma primitive_right a b : 0 < a -> 0 < b -> filterlim (primitive a b) (Rbar_locally p_infty) (locally 0).
Proof.
  intros Ha Hb P [e He]. pose proof (cond_pos e) as He0. unfold filtermap.
  exists (Rmax 1 (exp (- ln e / a))). intros t Ht.
  pose proof (Rmax_l 1 (exp (- ln e / a))). pose proof (Rmax_r 1 (exp (- ln e / a))).
  apply He. change (Rabs (primitive a b t + - 0) < e).
  rewrite Ropp_0, Rplus_0_r, Rabs_pos_eq by (apply Rlt_le, Rmult_lt_0_compat; apply exp_pos).
  assert (L : - ln e / a < ln t).
  { rewrite <- (ln_exp (- ln e / a)). apply ln_increasing; [apply exp_pos | lra]. }
  apply (Rmult_lt_compat_r a) in L; [| exact Ha].
  replace (- ln e / a * a) with (- ln e) in L by (field; lra).
  assert (0 < b / t) by (apply Rdiv_lt_0_compat; lra).
  unfold primitive, Rpower. rewrite <- exp_plus. rewrite <- (exp_ln e He0). apply exp_increasing. lra.
Qed.

Lemma primitive_left a b : 0 < a -> 0 < b -> filterlim (primitive a b) (at_right 0) (locally 0).
Proof.
  intros Ha Hb P [e He]. pose proof (cond_pos e) as He0. unfold filtermap, at_right, within.
  set (k := 2 * a / b). assert (Hk : 0 < k) by (apply Rdiv_lt_0_compat; lra).
  set (A := exp (a * ln k)). pose proof (exp_pos (a * ln k)) as HA. fold A in HA.
  assert (Hd : 0 < e * b / (2 * A)) by (apply Rdiv_lt_0_compat; nra).
  exists (mkposreal _ Hd). intros t Bt Ht.
  change (Rabs (minus t 0) < e * b / (2 * A)) in Bt. unfold minus, plus, opp in Bt; cbn in Bt.
  rewrite Ropp_0, Rplus_0_r, Rabs_pos_eq in Bt by lra.
  apply He. change (Rabs (primitive a b t + - 0) < e).
  rewrite Ropp_0, Rplus_0_r, Rabs_pos_eq by (apply Rlt_le, Rmult_lt_0_compat; apply exp_pos).
  assert (Hi : 0 < / t) by (now apply Rinv_0_lt_compat).
  assert (L : - ln t <= / t / k + ln k) by (rewrite <- ln_Rinv by exact Ht; now apply ln_line).
  assert (L' : - a * ln t <= b / 2 * / t + a * ln k).
  { apply (Rmult_le_compat_l a) in L; [| lra].
    replace (a * (/ t / k + ln k)) with (b / 2 * / t + a * ln k) in L by (unfold k; field; lra). lra. }
  assert (B : primitive a b t <= A * exp (- (b / 2 * / t))).
  { unfold primitive, Rpower, A. rewrite <- !exp_plus.
    destruct (Rle_lt_or_eq_dec (- a * ln t + - (b / t)) (a * ln k + - (b / 2 * / t))) as [Q | Q].
    - unfold Rdiv in *. lra.
    - apply Rlt_le, exp_increasing. exact Q.
    - rewrite Q. lra. }
  apply (Rle_lt_trans _ _ _ B). rewrite exp_Ropp.
  assert (X : 0 < b / 2 * / t) by (apply Rmult_lt_0_compat; lra).
  pose proof (exp_ineq1_le (b / 2 * / t)) as Q.
  apply (Rle_lt_trans _ (A * / (b / 2 * / t))).
  - apply Rmult_le_compat_l; [lra |]. apply Rinv_le_contravar; lra.
  - replace (A * / (b / 2 * / t)) with (t * (2 * A / b)) by (field; lra).
    apply (Rmult_lt_compat_r (2 * A / b)) in Bt; [| apply Rdiv_lt_0_compat; lra].
    replace (e * b / (2 * A) * (2 * A / b)) with (e : R) in Bt by (field; lra). exact Bt.
Qed.

Lemma invgamma_harmonic a b : 0 < a -> 0 < b -> is_harmonic_mean (invgamma_density a b) (b / a).
Proof.
  intros Ha Hb. destruct (invgamma_integral a b Ha Hb) as (l & Hl & I).
  assert (PP : filter_prod (at_right 0) (Rbar_locally p_infty)
    (fun ab => 0 < fst ab /\ 0 < snd ab)).
  { refine (Filter_prod _ _ _ _ _ at_right_pos infty_pos _). intros; now split. }
  assert (PX : forall ab : R * R, 0 < fst ab /\ 0 < snd ab -> forall x, Rmin (fst ab) (snd ab) <= x -> 0 < x).
  { intros ab [P1 P2] x Hx. eapply Rlt_le_trans; [| exact Hx]. now apply Rmin_glb_lt. }
  assert (D : integral_positive (Derive (primitive a b)) (0 - 0)).
  { apply is_RInt_gen_Derive.
    - revert PP. apply filter_imp. intros ab H x [Hx _]. eexists. apply primitive_derive. exact (PX ab H x Hx).
    - revert PP. apply filter_imp. intros ab H x [Hx _]. pose proof (PX ab H x Hx) as P.
      apply (continuous_ext_loc _ (fun t => b * (invgamma_density a b t / t) - a * invgamma_density a b t)).
      + exists (mkposreal x P). intros y Hy. symmetry. apply is_derive_unique, primitive_derive.
        change (Rabs (minus y x) < x) in Hy. unfold minus, plus, opp in Hy; cbn in Hy. apply Rabs_def2 in Hy. lra.
      + apply (ex_derive_continuous (K := R_AbsRing) (V := R_NormedModule)).
        unfold invgamma_density, Rpower. auto_derive. repeat split; lra.
    - now apply primitive_left.
    - now apply primitive_right. }
  exists l, (a / b * l). split; [exact Hl |]. split.
  { apply Rmult_lt_0_compat; [now apply Rdiv_lt_0_compat | exact Hl]. }
  split; [exact I |]. split.
  - unfold integral_positive in *.
    pose proof (is_RInt_gen_plus _ _ _ _ (is_RInt_gen_scal _ (/ b) _ D) (is_RInt_gen_scal _ (a / b) _ I)) as G.
    replace (a / b * l) with (plus (scal (/ b) (0 - 0)) (scal (a / b) l))
      by (unfold plus, scal; cbn; unfold mult; cbn; ring).
    revert G. apply is_RInt_gen_ext. revert PP. apply filter_imp. intros ab H x [Hx _].
    assert (P : 0 < x) by (apply (PX ab H x); lra).
    rewrite (is_derive_unique _ _ _ (primitive_derive a b x P)).
    unfold plus, scal; cbn; unfold mult; cbn. field. lra.
  - field. lra.
Qed.
