(** The cutpoints in single precision (C25). *)
From Coq Require Import ZArith List Bool Reals Lia Lra.
From Flocq Require Import Core BinarySingleNaN.
From Verif Require Import Base LemBase Laws32 ModelJaxext ModelPrep SpecPrep ProofUnique ProofPrep PropPrep.
Import ListNotations.
Open Scope Z_scope.

(** ** Rounding *)

(** The numbers with 24 bits of mantissa and exponent at least -149 (binary32
    without the upper limit on the exponent), and rounding to the nearest *)
Definition is_float (x : R) : Prop := generic_format radix2 (FLT_exp (-149) 24) x.
Definition rnd (x : R) : R := round radix2 (FLT_exp (-149) 24) ZnearestE x.

(** prepcovars.py:73 in floating point arithmetic *)
Definition float_half_sum (b a : ext) : ext :=
  match b, a with
  | Some b, Some a => Some (rnd (rnd (b + a) / 2))
  | _, _ => None
  end.

#[local] Instance valid_exp : Valid_exp (FLT_exp (-149) 24).
Proof. apply FLT_exp_valid. reflexivity. Qed.

Lemma is_float_iff x : is_float x <-> exists m e, x = F2R (Float radix2 m e) /\ Z.abs m < 2 ^ 24 /\ -149 <= e.
Proof.
  split.
  - intros H. apply FLT_format_generic in H; [| reflexivity]. destruct H as [f Hf Hm He].
    destruct f as [m e]. exists m, e. cbn in *. auto.
  - intros (m & e & -> & Hm & He). apply (generic_format_FLT radix2 (-149) 24).
    exists (Float radix2 m e); [reflexivity | exact Hm | exact He].
Qed.

Lemma rnd_float x : is_float (rnd x).
Proof. apply generic_format_round; [apply valid_exp | apply valid_rnd_N]. Qed.
Lemma rnd_id x : is_float x -> rnd x = x.
Proof. intros H. apply round_generic; [apply valid_rnd_N | exact H]. Qed.
Lemma rnd_le x y : (x <= y)%R -> (rnd x <= rnd y)%R.
Proof. apply round_le; [apply valid_exp | apply valid_rnd_N]. Qed.
Lemma rnd_nearest x g : is_float g -> (Rabs (rnd x - x) <= Rabs (g - x))%R.
Proof. intros H. exact (proj2 (round_N_pt radix2 (FLT_exp (-149) 24) (fun x => negb (Z.even x)) x) g H). Qed.

Lemma float_double x : is_float x -> is_float (2 * x).
Proof.
  intros H. apply is_float_iff in H as (m & e & -> & Hm & He). apply is_float_iff.
  exists m, (e + 1). split; [| split; [exact Hm | lia]].
  unfold F2R. cbn [Fnum Fexp]. rewrite bpow_plus. change (bpow radix2 1) with 2%R. ring.
Qed.

Lemma F2R_scale m e : -149 <= e -> F2R (Float radix2 m e) = F2R (Float radix2 (m * 2 ^ (e + 149)) (-149)).
Proof.
  intros He. rewrite (F2R_change_exp radix2 (-149) m e He). reflexivity.
Qed.

(** multiples of 2^-149 below 2^-125 *)
Lemma float_small k : Z.abs k < 2 ^ 24 -> is_float (F2R (Float radix2 k (-149))).
Proof. intros H. apply is_float_iff. exists k, (-149). split; [reflexivity | split; [exact H | lia]]. Qed.

(** A sum of floats is rounded to a number with a representable half, or is not
    rounded. *)
Lemma sum_half a b : is_float a -> is_float b -> is_float (rnd (a + b) / 2) \/ rnd (a + b) = (a + b)%R.
Proof.
  intros Ha Hb. apply is_float_iff in Ha as (m1 & e1 & -> & _ & He1). apply is_float_iff in Hb as (m2 & e2 & -> & _ & He2).
  rewrite (F2R_scale m1 e1 He1), (F2R_scale m2 e2 He2).
  set (k1 := m1 * 2 ^ (e1 + 149)). set (k2 := m2 * 2 ^ (e2 + 149)).
  assert (E : (F2R (Float radix2 k1 (-149)) + F2R (Float radix2 k2 (-149)) = F2R (Float radix2 (k1 + k2) (-149)))%R).
  { unfold F2R. cbn [Fnum Fexp]. rewrite plus_IZR. ring. }
  rewrite E. set (k := k1 + k2).
  destruct (Z.lt_ge_cases (Z.abs k) (2 ^ 24)) as [L | L].
  - right. apply rnd_id. now apply float_small.
  - left. set (s := rnd (F2R (Float radix2 k (-149)))).
    assert (Hs : is_float s) by apply rnd_float.
    assert (LB : (bpow radix2 (-125) <= Rabs s)%R).
    { unfold s, rnd. rewrite <- round_NE_abs by apply valid_exp.
      change (bpow radix2 (-125) <= rnd (Rabs (F2R (Float radix2 k (-149)))))%R.
      rewrite <- (rnd_id (bpow radix2 (-125))).
      - apply rnd_le. rewrite <- F2R_Zabs. unfold F2R. cbn [Fnum Fexp].
        change (bpow radix2 (-125)) with (bpow radix2 (24 + -149)). rewrite bpow_plus.
        apply Rmult_le_compat_r; [apply bpow_ge_0 |]. apply IZR_le in L. exact L.
      - apply is_float_iff. exists 1, (-125). split; [| split; lia].
        unfold F2R. cbn [Fnum Fexp]. ring. }
    apply is_float_iff in Hs as (m & e & Es & Hm & He). apply is_float_iff.
    assert (H : e <> -149).
    { intros ->. rewrite Es, <- F2R_Zabs in LB. unfold F2R in LB. cbn [Fnum Fexp] in LB.
      change (bpow radix2 (-125)) with (bpow radix2 (24 + -149)) in LB. rewrite bpow_plus in LB.
      apply Rmult_le_reg_r in LB; [| apply bpow_gt_0]. change (bpow radix2 24) with (IZR (2 ^ 24)) in LB.
      apply le_IZR in LB. lia. }
    exists m, (e - 1). split; [| split; [exact Hm | lia]].
    rewrite Es. unfold F2R. cbn [Fnum Fexp]. replace e with (e - 1 + 1) at 1 by ring. rewrite bpow_plus.
    change (bpow radix2 1) with 2%R. field.
Qed.

Lemma float_midpoint a b f : is_float a -> is_float b -> is_float f -> (a < f < b)%R ->
  (a <= rnd (rnd (b + a) / 2) < b)%R.
Proof.
  intros Ha Hb Hf [H1 H2]. set (s := rnd (b + a)).
  assert (S1 : (2 * a <= s)%R).
  { rewrite <- (rnd_id (2 * a)) by now apply float_double. apply rnd_le. lra. }
  assert (S2 : (s <= 2 * b)%R).
  { rewrite <- (rnd_id (2 * b)) by now apply float_double. apply rnd_le. lra. }
  assert (S3 : (s < 2 * b)%R).
  { destruct S2 as [S2 | S2]; [exact S2 | exfalso].
    pose proof (rnd_nearest (b + a) (2 * f) (float_double f Hf)) as Q. fold s in Q. rewrite S2 in Q.
    rewrite (Rabs_pos_eq (2 * b - (b + a))) in Q by lra.
    unfold Rabs in Q. destruct (Rcase_abs (2 * f - (b + a))) in Q; lra. }
  split.
  - rewrite <- (rnd_id a Ha) at 1. apply rnd_le. lra.
  - destruct (sum_half b a Hb Ha) as [Q | Q].
    + fold s in Q. rewrite rnd_id by exact Q. lra.
    + fold s in Q. assert (L : (rnd (s / 2) <= b)%R).
      { rewrite <- (rnd_id b Hb). apply rnd_le. lra. }
      destruct L as [L | L]; [exact L | exfalso].
      pose proof (rnd_nearest (s / 2) f Hf) as N. rewrite L, Q in N.
      rewrite (Rabs_pos_eq (b - (b + a) / 2)) in N by lra.
      unfold Rabs in N. destruct (Rcase_abs (f - (b + a) / 2)) in N; lra.
Qed.

(** C25. With rounding and without overflow, the cutpoints are as expected if no
    two of the values are adjacent floating point numbers. *)
Theorem C25_rounding : forall (mode : oob ext) (n : Z) (X : list (list ext)) (max_bins : Z),
  1 <= n < 2 ^ 64 -> 1 <= max_bins ->
  (forall x, In x X -> zlen x = n) ->
  (forall x v, In x X -> In v x -> exists r, v = Some r /\ is_float r) ->
  (forall x a b, In x X -> In (Some a) x -> In (Some b) x -> (a < b)%R -> exists f, is_float f /\ (a < f < b)%R) ->
  rows_have_cutpoints ext_lt evenly None max_bins X
    (quantilized_splits_from_matrix (quantilized_row_float ext_lt ext_eqb mode None exact_lin float_half_sum)
       n X max_bins).
Proof.
  intros mode n X mb Hn Hmb HX HV HF. apply rows_have_cutpoints_row. intros x Hx.
  rewrite <- (HX x Hx) in *. apply (float_cutpoints _ _ _ _ _ (fun v => In v x)); auto.
  - intros a b Ia Ib. destruct (HV x a Hx Ia) as (ra & -> & Fa), (HV x b Hx Ib) as (rb & -> & Fb). cbn.
    destruct (Rlt_dec ra rb) as [L |]; [| discriminate]. intros _ _.
    destruct (HF x ra rb Hx Ia Ib L) as (f & Ff & B).
    pose proof (float_midpoint ra rb f Fa Fb Ff B) as [M1 M2].
    unfold separates. cbn. destruct (Rlt_dec _ ra); [lra |]. destruct (Rlt_dec _ rb); [auto | lra].
  - intros v Hv. destruct (HV x v Hx Hv) as (r & -> & _). reflexivity.
  - intros L HL. apply exact_good; lia.
Qed.
Print Assumptions C25_rounding.

(** ** Single precision, with adjacent values or overflow *)

Definition inf32 : b32 := B754_infinity false.
Definition half_sum32 (b a : b32) : b32 := Bdiv mode_NE (b32_add b a) (b32_of 2 0).
Definition row32 (x : list b32) (m : Z) : list b32 * Z :=
  quantilized_row_float Bltb Beqb (mkoob true inf32) inf32 exact_lin half_sum32 x m.

(** C25. In single precision two different values may get no cutpoint between
    them although there are enough bins: 1 + 2^-23 and 1 + 2^-22 fall in the same
    bin, because their rounded mean is the second. *)
Theorem C25_float32_refuted : exists a b : b32,
  is_finite a = true /\ is_finite b = true /\ Bltb a b = true /\
  forall max_bins, 2 <= max_bins ->
  let (splits, max_split) := quantilized_splits_from_matrix row32 2 [[a; b]] max_bins in
  max_split = [1] /\ bin_predictors Bltb [[a; b]] splits = [[0; 0]].
Proof.
  exists (b32_of (2 ^ 23 + 1) (-23)), (b32_of (2 ^ 23 + 2) (-23)).
  split; [vm_compute; reflexivity |]. split; [vm_compute; reflexivity |]. split; [vm_compute; reflexivity |].
  intros mb Hmb. unfold quantilized_splits_from_matrix. rewrite Z.min_r by lia.
  vm_compute. auto.
Qed.
Print Assumptions C25_float32_refuted.

(** C25. The same with 2^127 and 2^127 + 2^126: the sum overflows, the cutpoint is
    infinite. *)
Theorem C25_overflow_refuted : exists a b : b32,
  is_finite a = true /\ is_finite b = true /\ Bltb a b = true /\
  forall max_bins, 2 <= max_bins ->
  let (splits, max_split) := quantilized_splits_from_matrix row32 2 [[a; b]] max_bins in
  max_split = [1] /\ splits = [[inf32]] /\ bin_predictors Bltb [[a; b]] splits = [[0; 0]].
Proof.
  exists (b32_of 1 127), (b32_of 3 126).
  split; [vm_compute; reflexivity |]. split; [vm_compute; reflexivity |]. split; [vm_compute; reflexivity |].
  intros mb Hmb. unfold quantilized_splits_from_matrix. rewrite Z.min_r by lia.
  vm_compute. auto.
Qed.
Print Assumptions C25_overflow_refuted.

(** The other two values next to each other are told apart: the mean is
    rounded down. *)
Example ex_adjacent_even :
  let (splits, max_split) := row32 [b32_of (2 ^ 23) (-23); b32_of (2 ^ 23 + 1) (-23)] 1 in
  bin_row Bltb [b32_of (2 ^ 23) (-23); b32_of (2 ^ 23 + 1) (-23)] splits = [0; 1].
Proof. vm_compute. reflexivity. Qed.

(** ** The hypotheses of C25_rounding are met *)
Lemma float_int k : Z.abs k < 2 ^ 23 -> is_float (IZR k) /\ is_float (IZR k + 1 / 2).
Proof.
  intros H. split; apply is_float_iff.
  - exists k, 0. split; [unfold F2R; cbn; ring | split; lia].
  - exists (2 * k + 1), (-1). split; [| split; lia].
    unfold F2R. cbn [Fnum Fexp]. change (bpow radix2 (-1)) with (/ 2)%R. rewrite plus_IZR, mult_IZR. field.
Qed.

Example ex_rounding : let X := [[Some 3; Some 1; Some 2; Some 1]; [Some 10; Some (-7); Some 4; Some 0]]%R in
  (forall x, In x X -> zlen x = 4) /\
  (forall x v, In x X -> In v x -> exists r, v = Some r /\ is_float r) /\
  (forall x a b, In x X -> In (Some a) x -> In (Some b) x -> (a < b)%R -> exists f, is_float f /\ (a < f < b)%R).
Proof.
  cbv zeta.
  assert (Hi : forall x v, In x [[Some 3; Some 1; Some 2; Some 1]; [Some 10; Some (-7); Some 4; Some 0]]%R ->
    In v x -> exists k, v = Some (IZR k) /\ Z.abs k < 2 ^ 23).
  { intros x v [<- | [<- | []]] H; repeat (destruct H as [<- | H]; [eexists; split; [reflexivity | lia] |]); destruct H. }
  split; [| split].
  - intros x [<- | [<- | []]]; reflexivity.
  - intros x v Hx Hv. destruct (Hi x v Hx Hv) as (k & -> & Hk). exists (IZR k). split; [reflexivity | apply float_int, Hk].
  - intros x a b Hx Ha Hb L. destruct (Hi x _ Hx Ha) as (k & E & Hk), (Hi x _ Hx Hb) as (k' & E' & Hk').
    injection E as ->. injection E' as ->. exists (IZR k + 1 / 2)%R. split; [apply float_int, Hk |].
    apply lt_IZR in L. assert (Hle : k + 1 <= k') by lia. apply IZR_le in Hle. rewrite plus_IZR in Hle. lra.
Qed.
