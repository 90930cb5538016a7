(** The arithmetic used by the code: IEEE 754 single precision (binary32),
    rounding to nearest even, from Flocq. It satisfies [flaws], hence the
    theorems that assume only [flaws] hold for it. *)
From Coq Require Import ZArith Reals Bool Lia Lra.
From Flocq Require Import Core BinarySingleNaN.
From Verif Require Import Base Laws.
Open Scope Z_scope.

Definition b32 : Type := binary_float 24 128.
#[global] Instance prec32 : Prec_gt_0 24 := eq_refl.
#[global] Instance emax32 : Prec_lt_emax 24 128 := eq_refl.

Definition b32_0 : b32 := B754_zero false.
Definition b32_of (m e : Z) : b32 := binary_normalize 24 128 _ _ mode_NE m e false.
Definition b32_add : b32 -> b32 -> b32 := Bplus mode_NE.

(** The logarithms are computed by other libraries, they can be any functions. *)
Definition ops32 (log log1p : b32 -> b32) : fops := {|
  F := b32;
  f0 := b32_0; f1 := b32_of 1 0; fhalf := b32_of 1 (-1); fnan := B754_nan;
  fofZ := fun z => b32_of z 0;
  fadd := b32_add; fsub := Bminus mode_NE; fmul := Bmult mode_NE; fdiv := Bdiv mode_NE;
  fneg := Bopp; flog := log; flog1p := log1p; fsqrt := Bsqrt mode_NE;
  flt := Bltb; fle := Bleb; fcumsum := cumsum_from b32_add b32_0;
  fisfinite := is_finite
|}.

Lemma b32_sum_pos (a b : b32) : is_finite a = true -> is_finite b = true ->
  (0 < B2R a)%R -> (0 <= B2R b)%R -> Bltb b32_0 (b32_add a b) = true.
Proof.
  intros Fa Fb Ha Hb. pose proof (Bplus_correct 24 128 _ _ mode_NE a b Fa Fb) as H.
  assert (M : (B2R a <= round radix2 (SpecFloat.fexp 24 128) (round_mode mode_NE) (B2R a + B2R b))%R).
  { rewrite <- (round_generic radix2 (SpecFloat.fexp 24 128) (round_mode mode_NE) (B2R a)) at 1
      by apply generic_format_B2R.
    apply round_le; [now apply fexp_correct | apply valid_rnd_round_mode |].
    rewrite <- (Rplus_0_r (B2R a)) at 1. now apply Rplus_le_compat_l. }
  destruct (Rlt_bool _ _).
  - destruct H as (H & Ff & _). rewrite Bltb_correct by (auto || reflexivity).
    unfold b32_add. rewrite H. apply Rlt_bool_true. change (B2R b32_0) with 0%R. eapply Rlt_le_trans; [exact Ha | exact M].
  - destruct H as [H _]. unfold Bltb, b32_add. rewrite H.
    destruct a as [s | s | | [|] m e Hm]; try discriminate; [exfalso; simpl in Ha; lra | | reflexivity].
    exfalso. revert Ha. apply Rle_not_lt. apply F2R_le_0. simpl. lia.
Qed.

Lemma b32_finite_pos (a : b32) : is_finite a = true -> (Bltb b32_0 a = true <-> (0 < B2R a)%R).
Proof.
  intros H. rewrite Bltb_correct by (auto || reflexivity). simpl.
  destruct (Rlt_bool_spec 0 (B2R a)); split; auto; [discriminate | lra].
Qed.
Lemma b32_finite_nonneg (a : b32) : is_finite a = true -> (Bleb b32_0 a = true <-> (0 <= B2R a)%R).
Proof.
  intros H. rewrite Bleb_correct by (auto || reflexivity). simpl.
  destruct (Rle_bool_spec 0 (B2R a)); split; auto; [discriminate | lra].
Qed.

Lemma b32_pos_nonneg (a : b32) : Bltb b32_0 a = true -> Bleb b32_0 a = true.
Proof. now destruct a as [[|] | [|] | | [|] m e H]. Qed.

Lemma b32_zero_nonneg (a : b32) : Bleb b32_0 a = true ->
  (exists s, a = B754_zero s) \/ Bltb b32_0 a = true.
Proof. destruct a as [s | [|] | | [|] m e H]; intros L; try discriminate L; eauto. Qed.

Lemma b32_add_pos (a b : b32) : Bltb b32_0 a = true -> Bleb b32_0 b = true ->
  Bltb b32_0 (b32_add a b) = true /\ Bltb b32_0 (b32_add b a) = true.
Proof.
  intros Ha Hb. destruct (is_finite a) eqn:Fa, (is_finite b) eqn:Fb.
  - pose proof (proj1 (b32_finite_pos a Fa) Ha) as Pa.
    pose proof (proj1 (b32_finite_nonneg b Fb) Hb) as Pb. split; [now apply b32_sum_pos |].
    destruct (b32_zero_nonneg b Hb) as [[s ->] | Lb].
    + destruct a; try discriminate Ha; try discriminate Fa. exact Ha.
    + pose proof (proj1 (b32_finite_pos b Fb) Lb). apply b32_sum_pos; auto. lra.
  - destruct b as [s | [|] | | s m e H]; try discriminate Fb; try discriminate Hb.
    destruct a as [[|] | [|] | | [|] m e H]; try discriminate Fa; try discriminate Ha; split; reflexivity.
  - destruct a as [[|] | [|] | | [|] m e H]; try discriminate Fa; try discriminate Ha.
    destruct b as [s | [|] | | [|] m e H]; try discriminate Fb; try discriminate Hb; split; reflexivity.
  - destruct a as [[|] | [|] | | [|] m e H]; try discriminate Fa; try discriminate Ha.
    destruct b as [s | [|] | | [|] m e H]; try discriminate Fb; try discriminate Hb; split; reflexivity.
Qed.

#[global] Instance ops32_laws (log log1p : b32 -> b32) : flaws (ops32 log log1p).
Proof.
  apply sequential_laws; [| reflexivity]. constructor; cbn [ops32 F f0 fadd flt fle].
  - intros u x. destruct x as [s | s | | s m e H]; try reflexivity.
    destruct u as [| | |], s; reflexivity.
  - reflexivity.
  - intros a b Ha Hb. exact (proj1 (b32_add_pos a b Ha Hb)).
  - intros a b Ha Hb. exact (proj2 (b32_add_pos b a Hb Ha)).
  - intros a b Ha Hb. destruct (b32_zero_nonneg a Ha) as [[s ->] | La].
    + destruct (b32_zero_nonneg b Hb) as [[t ->] | Lb].
      * destruct s, t; reflexivity.
      * apply b32_pos_nonneg. exact (proj2 (b32_add_pos b _ Lb Ha)).
    + apply b32_pos_nonneg. exact (proj1 (b32_add_pos a b La Hb)).
  - apply b32_pos_nonneg.
  - reflexivity.
Qed.

(** ** The generator of jax *)

(** [lax.max] (without nan) *)
Definition b32_max (a b : b32) : b32 := if Bltb a b then b else a.
(** [random.uniform] of jax in [0, 1): multiples of 2^-23, from 23 random bits *)
Definition unif32 (bits : Z) : b32 := b32_of (bits mod 2 ^ 23) (-23).
(** [random.uniform(key, (), float32, 0, hi)] of jax *)
Definition unif32_to (bits : Z) (hi : b32) : b32 :=
  b32_max b32_0 (b32_add (Bmult mode_NE (unif32 bits) (Bminus mode_NE hi b32_0)) b32_0).
(** at least 2^-126, the smallest normal number, and finite *)
Definition normal32 (hi : b32) : bool := is_finite hi && Bleb (b32_of 1 (-126)) hi.

(** The generator with the given random bits. [unif32_to] with a subnormal
    upper limit may return the limit itself (see [unif32_to_subnormal]); this
    is left out. *)
Definition gen32 (log log1p : b32 -> b32) (bits : key -> Z -> Z) (normal : key -> Z -> b32)
    (gamma : key -> b32 -> b32) : rng (ops32 log log1p) := {|
  r_unif := (fun k i => unif32 (bits k i) : @F (ops32 log log1p));
  r_unif_to := (fun k (hi : @F (ops32 log log1p)) => if normal32 hi then unif32_to (bits k 0) hi else b32_0);
  r_bits := fun k => bits k 0;
  r_normal := normal : key -> Z -> @F (ops32 log log1p);
  r_gamma := gamma : key -> @F (ops32 log log1p) -> @F (ops32 log log1p)
|}.

Lemma format32 (m e : Z) : Z.abs m < 2 ^ 24 -> -149 <= e ->
  generic_format radix2 (SpecFloat.fexp 24 128) (F2R (Float radix2 m e)).
Proof.
  intros Hm He. apply (generic_format_FLT radix2 (-149) 24).
  exists (Float radix2 m e); [reflexivity | exact Hm | exact He].
Qed.

Lemma F2R_pow23 (e : Z) : F2R (Float radix2 (2 ^ 23) e) = bpow radix2 (23 + e).
Proof. rewrite bpow_plus. reflexivity. Qed.

Lemma unif32_real (bits : Z) :
  B2R (unif32 bits) = F2R (Float radix2 (bits mod 2 ^ 23) (-23)) /\ is_finite (unif32 bits) = true.
Proof.
  set (k := bits mod 2 ^ 23). assert (Hk : 0 <= k < 2 ^ 23) by (apply Z.mod_pos_bound; lia).
  pose proof (binary_normalize_correct 24 128 _ _ mode_NE k (-23) false) as H. cbv zeta in H.
  assert (G : generic_format radix2 (SpecFloat.fexp 24 128) (F2R (Float radix2 k (-23)))).
  { apply format32; lia. }
  rewrite round_generic in H by (auto; apply valid_rnd_round_mode).
  rewrite Rlt_bool_true in H.
  - destruct H as (H1 & H2 & _). split; assumption.
  - rewrite <- F2R_Zabs. rewrite Z.abs_eq by lia.
    apply Rlt_le_trans with (F2R (Float radix2 (2 ^ 23) (-23))); [apply F2R_lt; lia |].
    rewrite F2R_pow23. apply bpow_le. lia.
Qed.

Lemma unif32_bounds (bits : Z) : (0 <= B2R (unif32 bits) < 1)%R.
Proof.
  destruct (unif32_real bits) as [-> _]. assert (Hk : 0 <= bits mod 2 ^ 23 < 2 ^ 23) by (apply Z.mod_pos_bound; lia).
  split; [apply F2R_ge_0; simpl; lia |].
  apply Rlt_le_trans with (F2R (Float radix2 (2 ^ 23) (-23))); [apply F2R_lt; lia |].
  rewrite F2R_pow23. right. reflexivity.
Qed.

Lemma b32_of_pow (e : Z) : -149 <= e < 128 -> B2R (b32_of 1 e) = bpow radix2 e /\ is_finite (b32_of 1 e) = true.
Proof.
  intros He. pose proof (binary_normalize_correct 24 128 _ _ mode_NE 1 e false) as H. cbv zeta in H.
  assert (G : generic_format radix2 (SpecFloat.fexp 24 128) (F2R (Float radix2 1 e))).
  { apply format32; lia. }
  rewrite round_generic in H by (auto; apply valid_rnd_round_mode).
  assert (E : F2R (Float radix2 1 e) = bpow radix2 e) by (unfold F2R; simpl Fnum; simpl Fexp; ring).
  rewrite E in H. rewrite Rlt_bool_true in H; [now destruct H as (H1 & H2 & _) |].
  rewrite Rabs_pos_eq by apply bpow_ge_0. apply bpow_lt. lia.
Qed.

Lemma normal32_mantissa (hi : b32) : normal32 hi = true ->
  exists m e, is_finite hi = true /\ B2R hi = F2R (Float radix2 m e) /\ 2 ^ 23 <= m < 2 ^ 24 /\ -149 <= e.
Proof.
  intros H. apply andb_prop in H as [Ff H].
  destruct (b32_of_pow (-126)) as [E1 E2]; [lia |].
  rewrite Bleb_correct, E1 in H by assumption.
  destruct hi as [s | s | | s m e Hm]; try discriminate Ff.
  { exfalso. simpl B2R in H. revert H. rewrite Rle_bool_false; [discriminate | apply bpow_gt_0]. }
  assert (L : (bpow radix2 (-126) <= B2R (B754_finite s m e Hm))%R) by (destruct (Rle_bool_spec (bpow radix2 (-126)) (B2R (B754_finite s m e Hm))); [assumption | discriminate]).
  clear H. destruct s.
  { exfalso. assert (B2R (B754_finite true m e Hm) <= 0)%R by (apply F2R_le_0; simpl; lia).
    pose proof (bpow_gt_0 radix2 (-126)). lra. }
  exists (Zpos m), e. split; [reflexivity |]. split; [reflexivity |].
  pose proof Hm as HB. unfold SpecFloat.bounded in HB. apply andb_prop in HB as [C _].
  apply Zeq_bool_eq in C. unfold SpecFloat.fexp, SpecFloat.emin in C.
  rewrite Digits.Zpos_digits2_pos in C.
  pose proof (Digits.Zdigits_correct radix2 (Zpos m)) as D. cbn [Z.abs] in D.
  set (d := Digits.Zdigits radix2 (Zpos m)) in *.
  assert (De : -149 <= e) by lia.
  assert (D24 : d <= 24) by lia.
  assert (d = 24).
  { destruct (Z.eq_dec d 24) as [| ND]; [assumption | exfalso].
    assert (e = -149) by lia. subst e. revert L. apply Rlt_not_le.
    change (B2R (B754_finite false m (-149) Hm)) with (F2R (Float radix2 (Zpos m) (-149))).
    apply Rlt_le_trans with (F2R (Float radix2 (2 ^ 23) (-149))).
    - apply F2R_lt. assert (Zpower radix2 d <= Zpower radix2 23) by (apply Zpower_le; lia).
      change (Zpower radix2 23) with (2 ^ 23) in *. lia.
    - rewrite F2R_pow23. right. reflexivity. }
  rewrite H in D. change (Zpower radix2 (24 - 1)) with (2 ^ 23) in D. change (Zpower radix2 24) with (2 ^ 24) in D.
  lia.
Qed.

Lemma unif32_to_lt (bits : Z) (hi : b32) : normal32 hi = true -> Bltb (unif32_to bits hi) hi = true.
Proof.
  intros N. destruct (normal32_mantissa hi N) as (m & e & Ff & E & Hm & He).
  assert (P : Bltb b32_0 hi = true).
  { apply b32_finite_pos; [assumption |]. rewrite E. apply F2R_gt_0. simpl. lia. }
  assert (Z0 : Bminus mode_NE hi b32_0 = hi).
  { destruct hi as [s | s | | s mm ee HH]; try discriminate Ff; [discriminate P | reflexivity]. }
  unfold unif32_to, b32_max. rewrite Z0. destruct (Bltb b32_0 (b32_add _ _)); [| exact P].
  destruct (unif32_real bits) as [U Fu]. set (k := bits mod 2 ^ 23) in *.
  assert (Hk : 0 <= k < 2 ^ 23) by (apply Z.mod_pos_bound; lia).
  pose proof (Bmult_correct 24 128 _ _ mode_NE (unif32 bits) hi) as H.
  set (v := F2R (Float radix2 (m - 1) e)).
  assert (G : generic_format radix2 (SpecFloat.fexp 24 128) v).
  { apply format32; lia. }
  assert (LE : (B2R (unif32 bits) * B2R hi <= v)%R).
  { rewrite U, E. unfold v, F2R. simpl Fnum. simpl Fexp.
    replace (IZR k * bpow radix2 (-23) * (IZR m * bpow radix2 e))%R
      with (IZR (k * m) * bpow radix2 (-23) * bpow radix2 e)%R by (rewrite mult_IZR; ring).
    apply Rmult_le_compat_r; [apply bpow_ge_0 |].
    apply Rmult_le_reg_r with (bpow radix2 23); [apply bpow_gt_0 |].
    rewrite Rmult_assoc, <- bpow_plus. change (bpow radix2 (-23 + 23)) with 1%R. rewrite Rmult_1_r.
    change 23 with (Z.of_nat 23) at 1. rewrite <- (IZR_Zpower radix2) by lia.
    change (Zpower radix2 (Z.of_nat 23)) with (2 ^ 23). rewrite <- mult_IZR. apply IZR_le. nia. }
  assert (RL : (round radix2 (SpecFloat.fexp 24 128) (round_mode mode_NE) (B2R (unif32 bits) * B2R hi) <= v)%R).
  { rewrite <- (round_generic radix2 (SpecFloat.fexp 24 128) (round_mode mode_NE) v G).
    apply round_le; [now apply fexp_correct | apply valid_rnd_round_mode | exact LE]. }
  assert (RG : (0 <= round radix2 (SpecFloat.fexp 24 128) (round_mode mode_NE) (B2R (unif32 bits) * B2R hi))%R).
  { apply round_ge_generic; [now apply fexp_correct | apply valid_rnd_round_mode | apply generic_format_0 |].
    apply Rmult_le_pos; [apply unif32_bounds |]. rewrite E. apply F2R_ge_0. simpl. lia. }
  assert (VH : (v < B2R hi)%R) by (rewrite E; apply F2R_lt; lia).
  rewrite Rlt_bool_true in H.
  2: { rewrite Rabs_pos_eq by assumption. eapply Rle_lt_trans; [exact RL |]. eapply Rlt_trans; [exact VH |].
       eapply Rle_lt_trans; [apply Rle_abs |]. apply abs_B2R_lt_emax. }
  destruct H as (H1 & H2 & _). rewrite Fu, Ff in H2. cbn [andb] in H2.
  assert (Q : Bltb (Bmult mode_NE (unif32 bits) hi) hi = true).
  { rewrite Bltb_correct by assumption. rewrite H1. apply Rlt_bool_true. lra. }
  revert H2 Q. generalize (Bmult mode_NE (unif32 bits) hi). intros x Fx Q.
  destruct x as [s | s | | s mm ee HH]; try discriminate Fx; [| exact Q].
  destruct hi as [? | ? | | ? ? ? ?], s; try discriminate Ff; exact Q.
Qed.

#[global] Instance gen32_laws log log1p bits normal gamma : rlaws (gen32 log log1p bits normal gamma).
Proof.
  constructor; cbn [gen32 ops32 F f0 f1 fle flt r_unif r_unif_to].
  - intros k i. destruct (unif32_real (bits k i)) as [_ Fu]. rewrite Bltb_correct by (assumption || reflexivity).
    apply Rlt_bool_false. apply unif32_bounds.
  - intros k i. destruct (unif32_real (bits k i)) as [_ Fu]. destruct (b32_of_pow 0) as [E1 E2]; [lia |].
    rewrite Bltb_correct, E1 by assumption. apply Rlt_bool_true. apply unif32_bounds.
  - intros k hi _. destruct (normal32 hi); [| reflexivity]. unfold unif32_to, b32_max.
    destruct (Bltb b32_0 (b32_add _ _)) eqn:E; [| reflexivity].
    revert E. generalize (b32_add (Bmult mode_NE (unif32 (bits k 0)) (Bminus mode_NE hi b32_0)) b32_0). intros x E.
    now destruct x as [[|] | [|] | | [|] m e H].
  - intros k hi P. destruct (normal32 hi) eqn:N; [now apply unif32_to_lt | exact P].
Qed.

(** jax may return the upper limit if this is subnormal. *)
Example unif32_to_subnormal : unif32_to (2 ^ 23 - 1) (b32_of 1 (-149)) = b32_of 1 (-149).
Proof. apply B2SF_inj. vm_compute. reflexivity. Qed.
