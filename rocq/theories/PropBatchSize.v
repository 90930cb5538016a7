(** Automatic choice of the batch sizes (C44). *)
From Coq Require Import String ZArith List Bool Reals Lia Lra.
From Verif Require Import Base ModelBatchSize.
Open Scope Z_scope.

Lemma pymax_1 a : exists k, pymax (PInt 1) a = PInt k /\ 1 <= k /\
  (forall z, a = PInt z -> z <= k) /\ (1 < k -> a = PInt k).
Proof.
  unfold pymax, pylt. destruct a as [z | e].
  - destruct (Z.ltb_spec 1 z).
    + exists z. split; [reflexivity |]. split; [lia |]. split; [| reflexivity]. intros z' E. injection E as <-. lia.
    + exists 1. split; [reflexivity |]. split; [lia |]. split; [| lia]. intros z' E. injection E as <-. lia.
  - exists 1. split; [reflexivity |]. split; [lia |]. split; [discriminate | lia].
Qed.

Section Props.
  Context (e1 e2 e3 : Z -> Z).
  Let choose := choose_suffstat_batch_size e1 e2 e3.

  (** C44. On the known platforms the automatic sizes are positive integers, or
      None (no batches) for the counts on cpu; a size given by the user is left as it is. Whatever
      the result of the rounded logarithms. *)
  Theorem C44_batch_sizes : forall resid count platform size forest_size,
    platform = "cpu"%string \/ platform = "gpu"%string ->
    exists r c, choose resid count platform size forest_size = Some (r, c) /\
    (match resid with Given b => r = option_map PInt b | Auto => exists k, r = Some (PInt k) /\ 1 <= k end) /\
    (match count with
     | Given b => c = option_map PInt b
     | Auto => if String.eqb platform "cpu" then c = None else exists k, c = Some (PInt k) /\ 1 <= k
     end).
  Proof.
    intros resid count platform size forest_size HP.
    unfold choose, choose_suffstat_batch_size, choose_resid_batch_size, choose_count_batch_size.
    assert (EP : get_platform platform = Some platform) by (destruct HP; subst; reflexivity).
    rewrite EP.
    match goal with |- exists r c, match match resid with Auto => Some (Some (pymax (PInt 1) ?a)) | _ => _ end with _ => _ end = _ /\ _ =>
      destruct (pymax_1 a) as (k & -> & Hk & _) end.
    match goal with |- context [Some (Some (pymax (PInt 1) (pymax ?a ?b)))] =>
      destruct (pymax_1 (pymax a b)) as (k' & -> & Hk' & _) end.
    destruct resid as [| b], count as [| b'], HP; subst; cbn [String.eqb Ascii.eqb Bool.eqb];
      (eexists; eexists; split; [reflexivity |]; split; eauto).
  Qed.

  (** C44. The memory of the counts on gpu: with the automatic size, n points in
      batches take at most max_memory bytes, in the sense that
      forest_size * 4 bytes * n / batch_size <= 2^29. *)
  Theorem C44_memory : forall resid size forest_size r c, 0 <= size -> 0 <= forest_size ->
    choose resid Auto "gpu" size forest_size = Some (r, c) ->
    exists k, c = Some (PInt k) /\ forest_size * 4 * size <= 2 ^ 29 * k.
  Proof.
    intros resid size fs r c Hs Hf. unfold choose, choose_suffstat_batch_size.
    destruct (choose_resid_batch_size _ _ _ _ _); [| discriminate]. cbn [choose_count_batch_size get_platform String.eqb Ascii.eqb Bool.eqb orb].
    set (mb := - (- (fs * 4 * Z.max 1 size) / 2 ^ 29)).
    assert (HM : fs * 4 * Z.max 1 size <= 2 ^ 29 * mb).
    { unfold mb. pose proof (Z.mul_div_le (- (fs * 4 * Z.max 1 size)) (2 ^ 29) ltac:(lia)). lia. }
    intros E. injection E as _ <-.
    destruct (pymax_1 (pymax (pow2 (e3 (Z.max 1 size))) (PInt mb))) as (k & -> & Hk & Hz & H1).
    exists k. split; [reflexivity |].
    assert (mb <= k).
    { unfold pymax in Hz, H1. destruct (pylt _ _) eqn:L.
      - apply Hz. reflexivity.
      - unfold pylt in L. destruct (pow2 _) as [z | e] eqn:Ep.
        + apply Z.ltb_ge in L. specialize (Hz z eq_refl). lia.
        + apply Z.leb_gt in L. lia. }
    assert (fs * 4 * size <= fs * 4 * Z.max 1 size) by (apply Z.mul_le_mono_nonneg_l; lia).
    assert (2 ^ 29 * mb <= 2 ^ 29 * k) by (apply Z.mul_le_mono_nonneg_l; lia). lia.
  Qed.

  (** C44. An unknown platform is reported if a size is automatic. *)
  Theorem C44_unknown_platform : forall resid count platform size forest_size,
    platform <> "cpu"%string -> platform <> "gpu"%string ->
    choose resid count platform size forest_size = None <-> (resid = Auto \/ count = Auto).
  Proof.
    intros resid count platform size fs H1 H2.
    unfold choose, choose_suffstat_batch_size, choose_resid_batch_size, choose_count_batch_size, get_platform.
    apply String.eqb_neq in H1, H2. rewrite H1, H2. cbn [orb].
    destruct resid, count; split; intros H; try tauto; try discriminate; destruct H; discriminate.
  Qed.

  (** C44. If the logarithm is rounded to the nearest integer, on cpu there are
      about 6 batches of residuals: n / batch_size is between 4 and 9. *)
  Theorem C44_cpu_number : forall count size forest_size r c, 6 <= size ->
    (Rabs (ln (IZR size / 6) / ln 2 - IZR (e1 size)) <= 1 / 2)%R ->
    choose Auto count "cpu" size forest_size = Some (r, c) ->
    exists k, r = Some (PInt k) /\ 4 * k <= size <= 9 * k.
  Proof.
    intros count size fs r c Hs He. unfold choose, choose_suffstat_batch_size.
    cbn [choose_resid_batch_size get_platform String.eqb Ascii.eqb Bool.eqb orb].
    destruct (choose_count_batch_size _ _ _ _); [| discriminate]. intros E. injection E as <- _.
    replace (Z.max 1 size) with size by lia.
    set (e := e1 size) in *. apply IZR_le in Hs.
    assert (He' : (- (1 / 2) <= ln (IZR size / 6) / ln 2 - IZR e <= 1 / 2)%R).
    { pose proof (Rle_abs (ln (IZR size / 6) / ln 2 - IZR e)). pose proof (Rle_abs (- (ln (IZR size / 6) / ln 2 - IZR e))).
      rewrite Rabs_Ropp in *. lra. }
    clear He. rename He' into He.
    assert (L2 : (0 < ln 2)%R) by (rewrite <- ln_1; apply ln_increasing; lra).
    assert (Ln : (0 <= ln (IZR size / 6))%R).
    { rewrite <- ln_1. destruct (Req_dec (IZR size / 6) 1) as [-> | N]; [lra |]. left. apply ln_increasing; lra. }
    assert (He0 : 0 <= e).
    { apply Z.lt_pred_le. apply lt_IZR. unfold Z.pred. rewrite plus_IZR.
      assert (0 <= ln (IZR size / 6) / ln 2)%R by (apply Rmult_le_pos; [exact Ln | left; now apply Rinv_0_lt_compat]).
      lra. }
    unfold pow2. destruct (Z.leb_spec 0 e); [| lia].
    destruct (pymax_1 (PInt (2 ^ e))) as (k & -> & Hk & Hz & H1).
    assert (Ek : k = 2 ^ e).
    { specialize (Hz _ eq_refl). destruct (Z.eq_dec k 1) as [-> | N].
      - pose proof (Z.pow_pos_nonneg 2 e ltac:(lia) He0). lia.
      - assert (Q : PInt (2 ^ e) = PInt k) by (apply H1; lia). now injection Q. }
    exists k. split; [reflexivity |].
    assert (EP : IZR k = exp (IZR e * ln 2)).
    { rewrite Ek. rewrite <- (Z2Nat.id e He0) at 1 2. rewrite <- pow_IZR, <- INR_IZR_INZ.
      rewrite <- Rpower_pow by lra. reflexivity. }
    assert (ES : IZR size = (6 * exp (ln (IZR size / 6)))%R) by (rewrite exp_ln; lra).
    set (h := exp (ln 2 / 2)).
    assert (Hh : (h * h = 2)%R).
    { unfold h. rewrite <- exp_plus. replace (ln 2 / 2 + ln 2 / 2)%R with (ln 2) by lra. apply exp_ln. lra. }
    assert (Hp : (0 < h)%R) by apply exp_pos.
    assert (Hh2 : (h < 3 / 2)%R) by (apply Rnot_le_lt; intros Q; nra).
    set (x := ln (IZR size / 6)) in *. set (t := (IZR e * ln 2)%R) in *.
    assert (B : (t - ln 2 / 2 <= x <= t + ln 2 / 2)%R).
    { unfold t. assert (x = x / ln 2 * ln 2)%R by (field; lra). set (q := (x / ln 2)%R) in *.
      nra. }
    assert (expm : forall u v, (u <= v -> exp u <= exp v)%R).
    { intros u v [Q | ->]; [left; now apply exp_increasing | lra]. }
    assert (U : (IZR size <= 6 * (IZR k * h))%R).
    { rewrite ES, EP. unfold h. rewrite <- exp_plus. apply Rmult_le_compat_l; [lra |]. apply expm. lra. }
    assert (D : (6 * IZR k <= IZR size * h)%R).
    { rewrite ES, EP. unfold h. rewrite Rmult_assoc, <- exp_plus. apply Rmult_le_compat_l; [lra |]. apply expm. lra. }
    assert (Kp : (0 < IZR k)%R) by (rewrite EP; apply exp_pos).
    split; apply le_IZR; rewrite mult_IZR; nra.
  Qed.
End Props.
Print Assumptions C44_batch_sizes.
Print Assumptions C44_memory.
Print Assumptions C44_unknown_platform.
Print Assumptions C44_cpu_number.

(** No datapoints, and many: 2^-3 and 2^-2 before the limits, 2^7 and 2^5 *)
Example ex_choose_empty :
  choose_suffstat_batch_size (fun _ => -3) (fun _ => 0) (fun _ => -2) Auto Auto "gpu" 0 0 =
  Some (Some (PInt 1), Some (PInt 1)).
Proof. reflexivity. Qed.
Example ex_choose_cpu :
  choose_suffstat_batch_size (fun _ => 7) (fun _ => 4) (fun _ => 3) Auto Auto "cpu" 1000 12800 =
  Some (Some (PInt 128), None).
Proof. reflexivity. Qed.
Example ex_choose_gpu :
  choose_suffstat_batch_size (fun _ => 7) (fun _ => 4) (fun _ => 3) (Given None) Auto "gpu" 1000000 12800 =
  Some (None, Some (PInt 96)).
Proof. reflexivity. Qed.
Example ex_nearest : (Rabs (ln (IZR 12 / 6) / ln 2 - IZR 1) <= 1 / 2)%R.
Proof.
  assert (L2 : (0 < ln 2)%R) by (rewrite <- ln_1; apply ln_increasing; lra).
  replace (IZR 12 / 6)%R with 2%R by lra. replace (ln 2 / ln 2)%R with 1%R by (field; lra).
  rewrite Rminus_diag_eq by reflexivity. rewrite Rabs_R0. lra.
Qed.
