(** The positions of the quantiles in single precision (C25). *)
From Coq Require Import ZArith List Bool Reals Lia Lra.
From Flocq Require Import Core Relative BinarySingleNaN.
From Verif Require Import Base LemBase Laws32 ModelJaxext ModelPrep SpecPrep ProofUnique ProofPrep PropPrep PropFloatPrep.
Import ListNotations.
Open Scope Z_scope.

(** [jnp.around(jnp.linspace(-1, L, m + 2)[k + 1])] in single precision. Point i of
    jnp.linspace(start, stop, num) is start (1 - s) + stop s, where s = i / (num - 1);
    this is knowledge on jax, not on /repo. *)
Definition point32 (L m k : Z) : b32 :=
  let s := Bdiv mode_NE (b32_of (k + 1) 0) (b32_of (m + 1) 0) in
  b32_add (Bmult mode_NE (b32_of (-1) 0) (Bminus mode_NE (b32_of 1 0) s)) (Bmult mode_NE (b32_of L 0) s).
Definition lin32 (L m k : Z) : Z := Btrunc (Bnearbyint mode_NE (point32 L m k)).

(** ** Errors *)
Section Errors.
  Open Scope R_scope.
  Definition u32 : R := bpow radix2 (-24).

  Lemma rnd_err x B : Rabs x <= B -> 1 <= B -> Rabs (rnd x - x) <= u32 * B.
  Proof.
    intros Hx HB. destruct (Rle_or_lt (bpow radix2 (-149 + 24 - 1)) (Rabs x)) as [H | H].
    - pose proof (relative_error_N_FLT radix2 (-149) 24 (eq_refl : (0 < 24)%Z) (fun x => negb (Z.even x)) x H) as E.
      assert (EB : / 2 * bpow radix2 (-24 + 1) = u32).
      { unfold u32. rewrite bpow_plus. change (bpow radix2 1) with 2. lra. }
      eapply Rle_trans; [exact E |]. change (/ 2 * bpow radix2 (-24 + 1) * Rabs x <= u32 * B). rewrite EB. apply Rmult_le_compat_l; [apply bpow_ge_0 | exact Hx].
    - pose proof (error_le_half_ulp radix2 (FLT_exp (-149) 24) (fun x => negb (Z.even x)) x) as E.
      rewrite ulp_FLT_small in E.
      + fold ZnearestE in E. change (round radix2 (FLT_exp (-149) 24) ZnearestE x) with (rnd x) in E.
        assert (bpow radix2 (-149) <= bpow radix2 (-24)) by (apply bpow_le; lia).
        assert (u32 * 1 <= u32 * B) by (apply Rmult_le_compat_l; [apply bpow_ge_0 | exact HB]).
        pose proof (bpow_ge_0 radix2 (-149)). unfold u32 in *. lra.
      + reflexivity.
      + eapply Rlt_trans; [exact H |]. apply bpow_lt. lia.
  Qed.

  Lemma rnd_int (z : Z) : (Z.abs z < 2 ^ 24)%Z -> rnd (IZR z) = IZR z.
  Proof.
    intros H. apply rnd_id, is_float_iff. exists z, 0%Z. split; [unfold F2R; cbn; ring | split; [exact H | lia]].
  Qed.

  Lemma rnd_bounds x a b : rnd a = a -> rnd b = b -> a <= x <= b -> a <= rnd x <= b.
  Proof. intros Ea Eb H. rewrite <- Ea, <- Eb. split; apply rnd_le; lra. Qed.
End Errors.

Lemma format_32 : SpecFloat.fexp 24 128 = FLT_exp (-149) 24. Proof. reflexivity. Qed.

Lemma no_overflow x : (Rabs x <= IZR (2 ^ 24))%R ->
  Rlt_bool (Rabs (round radix2 (SpecFloat.fexp 24 128) (round_mode mode_NE) x)) (bpow radix2 128) = true.
Proof.
  intros H. apply Rlt_bool_true.
  change (round radix2 (SpecFloat.fexp 24 128) (round_mode mode_NE) x) with (rnd x).
  assert (E : (rnd (IZR (2 ^ 24)) = IZR (2 ^ 24))%R).
  { apply rnd_id, is_float_iff. exists 1, 24. split; [unfold F2R; cbn [Fnum Fexp]; change (bpow radix2 24) with (IZR (2 ^ 24)); ring | split; lia]. }
  assert (E' : (rnd (- IZR (2 ^ 24)) = - IZR (2 ^ 24))%R).
  { apply rnd_id, is_float_iff. exists (-1), 24. split; [unfold F2R; cbn [Fnum Fexp]; change (bpow radix2 24) with (IZR (2 ^ 24)); ring | split; lia]. }
  assert (B : (- IZR (2 ^ 24) <= rnd x <= IZR (2 ^ 24))%R).
  { apply rnd_bounds; auto. now apply Rabs_le_inv. }
  apply Rle_lt_trans with (IZR (2 ^ 24)); [now apply Rabs_le |].
  change (IZR (2 ^ 24)) with (bpow radix2 24). apply bpow_lt. lia.
Qed.

(** the operations, without overflow *)
Lemma of32 z : Z.abs z < 2 ^ 24 -> B2R (b32_of z 0) = IZR z /\ is_finite (b32_of z 0) = true.
Proof.
  intros H. pose proof (binary_normalize_correct 24 128 _ _ mode_NE z 0 false) as C. cbv zeta in C.
  assert (E : F2R (Float radix2 z 0) = IZR z) by (unfold F2R; cbn; ring). rewrite E in C.
  assert (A : (Rabs (IZR z) <= IZR (2 ^ 24))%R) by (rewrite <- abs_IZR; apply IZR_le; lia).
  rewrite (no_overflow _ A) in C. destruct C as (C1 & C2 & _). split; [| exact C2].
  unfold b32_of. rewrite C1. now apply rnd_int.
Qed.
Lemma div32 x y : is_finite x = true -> B2R y <> 0%R -> (Rabs (B2R x / B2R y) <= IZR (2 ^ 24))%R ->
  B2R (Bdiv mode_NE x y) = rnd (B2R x / B2R y) /\ is_finite (Bdiv mode_NE x y) = true.
Proof.
  intros Fx Hy A. pose proof (Bdiv_correct 24 128 _ _ mode_NE x y Hy) as C.
  rewrite (no_overflow _ A) in C. destruct C as (C1 & C2 & _). split; [exact C1 | congruence].
Qed.
Lemma mul32 x y : is_finite x = true -> is_finite y = true -> (Rabs (B2R x * B2R y) <= IZR (2 ^ 24))%R ->
  B2R (Bmult mode_NE x y) = rnd (B2R x * B2R y) /\ is_finite (Bmult mode_NE x y) = true.
Proof.
  intros Fx Fy A. pose proof (Bmult_correct 24 128 _ _ mode_NE x y) as C.
  rewrite (no_overflow _ A) in C. destruct C as (C1 & C2 & _). split; [exact C1 |]. rewrite C2, Fx, Fy. reflexivity.
Qed.
Lemma sub32 x y : is_finite x = true -> is_finite y = true -> (Rabs (B2R x - B2R y) <= IZR (2 ^ 24))%R ->
  B2R (Bminus mode_NE x y) = rnd (B2R x - B2R y) /\ is_finite (Bminus mode_NE x y) = true.
Proof.
  intros Fx Fy A. pose proof (Bminus_correct 24 128 _ _ mode_NE x y Fx Fy) as C.
  rewrite (no_overflow _ A) in C. destruct C as (C1 & C2 & _). auto.
Qed.
Lemma add32 x y : is_finite x = true -> is_finite y = true -> (Rabs (B2R x + B2R y) <= IZR (2 ^ 24))%R ->
  B2R (b32_add x y) = rnd (B2R x + B2R y) /\ is_finite (b32_add x y) = true.
Proof.
  intros Fx Fy A. pose proof (Bplus_correct 24 128 _ _ mode_NE x y Fx Fy) as C.
  rewrite (no_overflow _ A) in C. destruct C as (C1 & C2 & _). auto.
Qed.

(** The point before rounding to an integer *)
Lemma point32_error L m k : 0 <= k < m -> m < L < 2 ^ 24 - 1 ->
  (Rabs (B2R (point32 L m k) - (-1 + (IZR L + 1) * (IZR k + 1) / (IZR m + 1))) <= IZR (L + 2) / IZR (2 ^ 21))%R.
Proof.
  intros Hk HL.
  destruct (of32 (k + 1) ltac:(lia)) as [Vk Fk]. destruct (of32 (m + 1) ltac:(lia)) as [Vm Fm].
  destruct (of32 L ltac:(lia)) as [VL FL]. destruct (of32 1 ltac:(lia)) as [V1 F1]. destruct (of32 (-1) ltac:(lia)) as [Vn Fn].
  set (s0 := (IZR (k + 1) / IZR (m + 1))%R).
  assert (Pk : (1 <= IZR (k + 1))%R) by (apply IZR_le; lia).
  assert (Pm : (IZR (k + 1) <= IZR (m + 1))%R) by (apply IZR_le; lia).
  assert (PL : (1 <= IZR L)%R) by (apply IZR_le; lia).
  assert (UL : (IZR L + 1 <= IZR (2 ^ 24))%R) by (rewrite <- plus_IZR; apply IZR_le; lia).
  assert (S0 : (0 <= s0 <= 1)%R).
  { unfold s0. split; [apply Rmult_le_pos; [lra |]; left; apply Rinv_0_lt_compat; lra |].
    apply Rmult_le_reg_r with (IZR (m + 1)); [lra |]. unfold Rdiv. rewrite Rmult_assoc, Rinv_l by lra. lra. }
  destruct (div32 (b32_of (k + 1) 0) (b32_of (m + 1) 0)) as [Vs Fs].
  { exact Fk. } { rewrite Vm. lra. } { rewrite Vk, Vm. fold s0. rewrite Rabs_pos_eq by lra. lra. }
  rewrite Vk, Vm in Vs. fold s0 in Vs. unfold point32.
  set (s := Bdiv mode_NE (b32_of (k + 1) 0) (b32_of (m + 1) 0)) in *.
  assert (R0 : rnd 0 = 0%R) by exact (rnd_int 0 eq_refl). assert (R1 : rnd 1 = 1%R) by exact (rnd_int 1 eq_refl).
  assert (RL : rnd (IZR L) = IZR L) by (apply rnd_int; lia).
  assert (BS : (0 <= B2R s <= 1)%R) by (rewrite Vs; apply rnd_bounds; auto).
  assert (ES : (Rabs (B2R s - s0) <= u32 * 1)%R).
  { rewrite Vs. apply rnd_err; [rewrite Rabs_pos_eq; lra | lra]. }
  destruct (sub32 (b32_of 1 0) s F1 Fs) as [Va Fa].
  { rewrite V1, Rabs_pos_eq; lra. }
  rewrite V1 in Va. set (a := Bminus mode_NE (b32_of 1 0) s) in *.
  assert (BA : (0 <= B2R a <= 1)%R) by (rewrite Va; apply rnd_bounds; auto; lra).
  assert (EA : (Rabs (B2R a - (1 - B2R s)) <= u32 * 1)%R).
  { rewrite Va. apply rnd_err; [rewrite Rabs_pos_eq; lra | lra]. }
  destruct (mul32 (b32_of (-1) 0) a Fn Fa) as [Vb Fb].
  { rewrite Vn. apply Rabs_le. lra. }
  rewrite Vn in Vb. set (b := Bmult mode_NE (b32_of (-1) 0) a) in *.
  assert (EB : B2R b = (- B2R a)%R).
  { rewrite Vb. replace (-1 * B2R a)%R with (- B2R a)%R by ring. unfold rnd. rewrite round_NE_opp. f_equal.
    apply rnd_id. apply generic_format_B2R. }
  assert (BL : (0 <= IZR L * B2R s <= IZR L)%R) by nra.
  destruct (mul32 (b32_of L 0) s FL Fs) as [Vc Fc].
  { rewrite VL, Rabs_pos_eq; lra. }
  rewrite VL in Vc. set (c := Bmult mode_NE (b32_of L 0) s) in *.
  assert (BC : (0 <= B2R c <= IZR L)%R) by (rewrite Vc; apply rnd_bounds; auto).
  assert (EC : (Rabs (B2R c - IZR L * B2R s) <= u32 * IZR L)%R).
  { rewrite Vc. apply rnd_err; [rewrite Rabs_pos_eq; lra | lra]. }
  destruct (add32 b c Fb Fc) as [Vp Fp].
  { rewrite EB. apply Rabs_le. lra. }
  assert (EP : (Rabs (B2R (b32_add b c) - (B2R b + B2R c)) <= u32 * (IZR L + 1))%R).
  { rewrite Vp. apply rnd_err; [rewrite EB; apply Rabs_le; lra | lra]. }
  replace (-1 + (IZR L + 1) * (IZR k + 1) / (IZR m + 1))%R with (- (1 - s0) + IZR L * s0)%R.
  2: { unfold s0. rewrite (plus_IZR k), (plus_IZR m) in *. field. lra. }
  assert (Hu : (0 <= u32)%R) by apply bpow_ge_0.
  replace (IZR (L + 2) / IZR (2 ^ 21))%R with (8 * u32 * (IZR L + 2))%R.
  2: { rewrite plus_IZR. unfold u32. change (bpow radix2 (-24)) with (/ IZR (2 ^ 24))%R.
       change (2 ^ 24) with (8 * 2 ^ 21). rewrite mult_IZR. field. apply not_0_IZR. lia. }
  revert ES EA EC EP. rewrite EB. generalize (B2R (b32_add b c)). intros p ES EA EC EP.
  apply Rabs_le_inv in ES, EA, EC, EP.
  assert (T1 : (- (u32 * IZR L) <= IZR L * (B2R s - s0) <= u32 * IZR L)%R) by (split; nra).
  assert (T2 : (0 <= u32 * IZR L)%R) by (apply Rmult_le_pos; lra).
  apply Rabs_le. split; lra.
Qed.

Lemma lin32_near : near_quantiles lin32 (2 ^ 24 - 1).
Proof.
  intros L m k Hk HL. pose proof (point32_error L m k Hk HL) as E. unfold lin32.
  set (p := point32 L m k) in *.
  destruct (Bnearbyint_correct 24 128 _ mode_NE p) as (N1 & _ & _).
  pose proof (Btrunc_correct 24 128 _ (Bnearbyint mode_NE p)) as T.
  rewrite N1 in T. set (z := Btrunc (Bnearbyint mode_NE p)) in *.
  assert (FI : forall rn {V : Valid_rnd rn} x, round radix2 (FIX_exp 0) rn x = IZR (rn x)).
  { intros rn V x. unfold round, scaled_mantissa, F2R, cexp, FIX_exp. cbn. now rewrite !Rmult_1_r. }
  rewrite (FI Ztrunc _), (FI (round_mode mode_NE) _) in T. rewrite Ztrunc_IZR in T.
  assert (H : (Rabs (IZR z - B2R p) <= / 2)%R).
  { rewrite T. cbn [round_mode]. rewrite Rabs_minus_sym. apply Znearest_half. }
  assert (Q : (Rabs (IZR z - (-1 + (IZR L + 1) * (IZR k + 1) / (IZR m + 1))) <= / 2 + IZR (L + 2) / IZR (2 ^ 21))%R).
  { replace (IZR z - (-1 + (IZR L + 1) * (IZR k + 1) / (IZR m + 1)))%R with
      ((IZR z - B2R p) + (B2R p - (-1 + (IZR L + 1) * (IZR k + 1) / (IZR m + 1))))%R by ring.
    eapply Rle_trans; [apply Rabs_triang |]. lra. }
  clear E H T N1 FI. apply le_IZR. rewrite mult_IZR, abs_IZR, !minus_IZR, !mult_IZR, !plus_IZR.
  assert (PM : (0 < IZR m + 1)%R) by (rewrite <- plus_IZR; apply IZR_lt; lia).
  replace ((IZR m + 1) * IZR z - ((IZR L + 1) * (IZR k + 1) - (IZR m + 1)))%R with
    ((IZR m + 1) * (IZR z - (-1 + (IZR L + 1) * (IZR k + 1) / (IZR m + 1))))%R by (field; lra).
  rewrite Rabs_mult, (Rabs_pos_eq (IZR m + 1)) by lra. rewrite Rmult_assoc.
  apply Rmult_le_compat_l; [lra |].
  apply Rle_trans with ((/ 2 + IZR (L + 2) / IZR (2 ^ 21)) * IZR (2 ^ 21))%R.
  - apply Rmult_le_compat_r; [apply IZR_le; lia | exact Q].
  - rewrite plus_IZR. right. change (IZR (2 ^ 21)) with (2 * IZR (2 ^ 20))%R.
    change 2097152%R with (2 * IZR (2 ^ 20))%R. field. apply not_0_IZR. lia.
Qed.

(** ** The cutpoints in single precision *)

Lemma near_quantiles_less lin n n' : n' <= n -> near_quantiles lin n -> near_quantiles lin n'.
Proof. intros H N L m k Hk HL. apply N; lia. Qed.

(** C25. Integer predictors, with the quantiles located in single precision and at
    most 512 bins. *)
Theorem C25_integers_single_precision : forall (x64 : bool) (t : itype) (mode : oob Z) (n : Z) (X : list (list Z)) (max_bins m : Z),
  1 <= it_bits t -> (it_signed t = true -> it_bits t <= 32) -> 1 <= n < 2 ^ 24 -> 1 <= max_bins <= 512 ->
  (forall x, In x X -> zlen x = n) ->
  (forall x v, In x X -> In v x -> representable (it_signed t) (it_bits t) v) -> largest (it_signed t) (it_bits t) m ->
  rows_have_cutpoints Z.ltb nearly_evenly m max_bins X
    (quantilized_splits_from_matrix (quantilized_row_int x64 t mode lin32) n X max_bins).
Proof.
  intros x64 t mode n X mb m Ht H64 Hn Hmb HX HV Hm. apply C25_integers_inexact; auto; try lia.
  apply near_quantiles_less with (n := 2 ^ 24 - 1); [lia | exact lin32_near].
Qed.
Print Assumptions C25_integers_single_precision.

(** C25. Float predictors, with the midpoints rounded too. *)
Theorem C25_floats_single_precision : forall (mode : oob ext) (n : Z) (X : list (list ext)) (max_bins : Z),
  1 <= n < 2 ^ 24 -> 1 <= max_bins <= 512 ->
  (forall x, In x X -> zlen x = n) ->
  (forall x v, In x X -> In v x -> exists r, v = Some r /\ is_float r) ->
  (forall x a b, In x X -> In (Some a) x -> In (Some b) x -> (a < b)%R -> exists f, is_float f /\ (a < f < b)%R) ->
  rows_have_cutpoints ext_lt nearly_evenly None max_bins X
    (quantilized_splits_from_matrix (quantilized_row_float ext_lt ext_eqb mode None lin32 float_half_sum)
       n X max_bins).
Proof.
  intros mode n X mb Hn Hmb HX HV HF. apply rows_have_cutpoints_row. intros x Hx.
  rewrite <- (HX x Hx) in *. apply (float_cutpoints _ _ _ _ _ (fun v => In v x)); auto; try lia.
  - intros a b Ia Ib. destruct (HV x a Hx Ia) as (ra & -> & Fa), (HV x b Hx Ib) as (rb & -> & Fb). cbn.
    destruct (Rlt_dec ra rb) as [L |]; [| discriminate]. intros _ _.
    destruct (HF x ra rb Hx Ia Ib L) as (f & Ff & B).
    pose proof (float_midpoint ra rb f Fa Fb Ff B) as [M1 M2].
    unfold separates. cbn. destruct (Rlt_dec _ ra); [lra |]. destruct (Rlt_dec _ rb); [auto | lra].
  - intros v Hv. destruct (HV x v Hx Hv) as (r & -> & _). reflexivity.
  - intros L HL. apply near_good with (n := zlen x); auto; try lia.
    apply near_quantiles_less with (n := 2 ^ 24 - 1); [lia | exact lin32_near].
Qed.
Print Assumptions C25_floats_single_precision.

(** C25. With thousands of bins the rounding makes two cutpoints equal: a bin can
    never contain anything, although there are more different values than bins. *)
Definition many : list Z := map (Z.mul 2) (arange 4100).
Definition many_row : list Z -> Z -> list Z * Z := quantilized_row_int false (mkitype true 32) (mkoob true 0) lin32.
Definition many_splits : list Z := fst (many_row many 4097).
Lemma many_used : snd (many_row many 4097) = 4097.
Proof. vm_compute. reflexivity. Qed.

Lemma one_row A (row : list A -> Z -> list A * Z) n x max_bins m : Z.min max_bins n - 1 = m ->
  quantilized_splits_from_matrix row n [x] max_bins = ([fst (row x m)], [snd (row x m)]).
Proof. intros <-. reflexivity. Qed.

Theorem C25_many_bins_refuted :
  exists n X max_bins splits used i c,
    1 <= n < 2 ^ 24 /\ (forall x, In x X -> zlen x = n) /\
    (forall x v, In x X -> In v x -> representable true 32 v) /\
    quantilized_splits_from_matrix (quantilized_row_int false (mkitype true 32) (mkoob true 0) lin32) n X max_bins =
      ([splits], [used]) /\
    Z.of_nat (S i) < used /\ nth_error splits i = Some c /\ nth_error splits (S i) = Some c.
Proof.
  exists 4100, [many], 4098, many_splits, 4097, (Z.to_nat 3072), 6149.
  split; [lia |]. split; [intros x [<- | []]; vm_compute; reflexivity |]. split.
  { intros x v [<- | []] Hv. unfold many, arange in Hv. rewrite map_map in Hv. apply in_map_iff in Hv.
    destruct Hv as (i & <- & Hi). apply in_seq in Hi. cbn. lia. }
  split.
  { rewrite <- many_used. exact (one_row _ many_row 4100 many 4098 4097 eq_refl). }
  split; [lia |]. split; vm_compute; reflexivity.
Qed.
Print Assumptions C25_many_bins_refuted.

(** Even with few bins the position may differ from the exact one, by one. *)
Example ex_position : lin32 8 5 0 = 1 /\ exact_lin 8 5 0 = 0.
Proof. vm_compute. auto. Qed.
Example ex_single_precision :
  quantilized_splits_from_matrix (quantilized_row_int false (mkitype true 32) (mkoob true 0) lin32) 9
    [[0; 10; 20; 30; 40; 50; 60; 70; 80]] 6 =
  ([map (fun k => 10 * k + 5) [1; 2; 4; 5; 6]], [5]).
Proof. vm_compute. reflexivity. Qed.
