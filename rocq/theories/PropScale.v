(** C56: when the standardised response consists of numbers *)
From Coq Require Import ZArith Reals List Bool Lia Lra.
From Flocq Require Import Core BinarySingleNaN.
From Verif Require Import Base LemBase Laws Laws32 ModelJaxext ModelGrove ModelStep SpecRun ModelPrep ModelBART ModelScale ProofRun
  Examples ExampleRun PropFloat32.
Import ListNotations.
Open Scope Z_scope.

(** In real arithmetic these are the functions of ModelBART.v. *)
Lemma fmax_real (y : list R) : @fmax rops y = rmax y.
Proof.
  unfold fmax, rmax. cbn [F rops f0 flt]. generalize (hd 0%R y). intros d. induction y as [| a l IH]; [reflexivity |].
  cbn [fold_right]. rewrite IH. unfold Rmax, Rltb. destruct (Rlt_dec _ _); destruct (Rle_dec _ _); lra.
Qed.

Lemma fmin_real (y : list R) : @fmin rops y = rmin y.
Proof.
  unfold fmin, rmin. cbn [F rops f0 flt]. generalize (hd 0%R y). intros d. induction y as [| a l IH]; [reflexivity |].
  cbn [fold_right]. rewrite IH. unfold Rmin, Rltb. destruct (Rlt_dec _ _); destruct (Rle_dec _ _); lra.
Qed.

Lemma scale_real (y : list R) (k : R) : @scale_of rops y k = process_scale y k.
Proof. unfold scale_of, process_scale. rewrite fmax_real, fmin_real. reflexivity. Qed.

Lemma standardize_real (y : list R) (o s : R) : @standardize rops y o s = transform_input y o s.
Proof. reflexivity. Qed.

(** ** Single precision *)

Local Notation rnd := (round radix2 (SpecFloat.fexp 24 128) (round_mode mode_NE)).

Lemma format_bpow (e : Z) : -149 <= e -> generic_format radix2 (SpecFloat.fexp 24 128) (bpow radix2 e).
Proof.
  intros H. replace (bpow radix2 e) with (F2R (Float radix2 1 e)) by (unfold F2R; simpl; lra).
  apply format32; [reflexivity | exact H].
Qed.

Lemma bpow_twice (e : Z) : (2 * bpow radix2 e)%R = bpow radix2 (e + 1).
Proof. rewrite bpow_plus. change (bpow radix2 1) with 2%R. ring. Qed.

Lemma rnd_upper (x : R) (e : Z) : -149 <= e -> (Rabs x <= bpow radix2 e)%R -> (Rabs (rnd x) <= bpow radix2 e)%R.
Proof. intros H L. apply abs_round_le_generic; [now apply fexp_correct | apply valid_rnd_round_mode | now apply format_bpow | exact L]. Qed.

Lemma rnd_lower (x : R) (e : Z) : -149 <= e -> (bpow radix2 e <= x)%R -> (bpow radix2 e <= rnd x)%R.
Proof. intros H L. apply round_ge_generic; [now apply fexp_correct | apply valid_rnd_round_mode | now apply format_bpow | exact L]. Qed.

Lemma no_overflow (x : R) (e : Z) : -149 <= e < 128 -> (Rabs x <= bpow radix2 e)%R ->
  Rlt_bool (Rabs (rnd x)) (bpow radix2 128) = true.
Proof.
  intros H L. apply Rlt_bool_true. apply Rle_lt_trans with (1 := rnd_upper x e (proj1 H) L). apply bpow_lt. lia.
Qed.

Lemma b32_sub_ok (a b : b32) (e : Z) : is_finite a = true -> is_finite b = true -> -149 <= e < 128 ->
  (Rabs (B2R a - B2R b) <= bpow radix2 e)%R ->
  is_finite (Bminus mode_NE a b) = true /\ B2R (Bminus mode_NE a b) = rnd (B2R a - B2R b)%R.
Proof.
  intros Fa Fb He L. pose proof (Bminus_correct 24 128 _ _ mode_NE a b Fa Fb) as H.
  rewrite (no_overflow _ e He L) in H. destruct H as (H & Ff & _). now split.
Qed.

Lemma b32_mul_ok (a b : b32) (e : Z) : is_finite a = true -> is_finite b = true -> -149 <= e < 128 ->
  (Rabs (B2R a * B2R b) <= bpow radix2 e)%R ->
  is_finite (Bmult mode_NE a b) = true /\ B2R (Bmult mode_NE a b) = rnd (B2R a * B2R b)%R.
Proof.
  intros Fa Fb He L. pose proof (Bmult_correct 24 128 _ _ mode_NE a b) as H.
  rewrite (no_overflow _ e He L) in H. destruct H as (H & Ff & _). split; [| exact H]. now rewrite Ff, Fa, Fb.
Qed.

Lemma b32_div_ok (a b : b32) (e : Z) : is_finite a = true -> B2R b <> 0%R -> -149 <= e < 128 ->
  (Rabs (B2R a / B2R b) <= bpow radix2 e)%R ->
  is_finite (Bdiv mode_NE a b) = true /\ B2R (Bdiv mode_NE a b) = rnd (B2R a / B2R b)%R.
Proof.
  intros Fa Nb He L. pose proof (Bdiv_correct 24 128 _ _ mode_NE a b Nb) as H.
  rewrite (no_overflow _ e He L) in H. destruct H as (H & Ff & _). split; [now rewrite Ff, Fa | exact H].
Qed.

(** A quotient by zero or by nan is not a number. *)
Lemma div_bad (a z : b32) : (exists s, z = B754_zero s) \/ z = B754_nan -> is_finite (Bdiv mode_NE a z) = false.
Proof. intros [[s ->] | ->]; destruct a; reflexivity. Qed.

Section Float32.
  Variables log log1p : b32 -> b32.
  Notation fo := (ops32 log log1p).

  Lemma fmax_in (y : list b32) : y <> [] -> In (@fmax fo y) y.
  Proof.
    change (y <> [] -> In (fold_right (fun a b : b32 => if Bltb a b then b else a) (hd b32_0 y) y) y). intros N.
    assert (H : forall d (l : list b32), (fold_right (fun a b : b32 => if Bltb a b then b else a) d l = d) \/
      In (fold_right (fun a b : b32 => if Bltb a b then b else a) d l) l).
    { intros d. induction l as [| a l IH]; [now left |]. cbn [fold_right]. destruct (Bltb _ _); [| right; now left].
      destruct IH as [IH | IH]; [now left | right; now right]. }
    destruct (H (hd b32_0 y) y) as [-> | E]; [| exact E]. destruct y; [easy | now left].
  Qed.

  Lemma fmin_in (y : list b32) : y <> [] -> In (@fmin fo y) y.
  Proof.
    change (y <> [] -> In (fold_right (fun a b : b32 => if Bltb b a then b else a) (hd b32_0 y) y) y). intros N.
    assert (H : forall d (l : list b32), (fold_right (fun a b : b32 => if Bltb b a then b else a) d l = d) \/
      In (fold_right (fun a b : b32 => if Bltb b a then b else a) d l) l).
    { intros d. induction l as [| a l IH]; [now left |]. cbn [fold_right]. destruct (Bltb _ _); [| right; now left].
      destruct IH as [IH | IH]; [now left | right; now right]. }
    destruct (H (hd b32_0 y) y) as [-> | E]; [| exact E]. destruct y; [easy | now left].
  Qed.

  Lemma fmax_ge (y : list b32) (v : b32) : (forall u, In u y -> is_finite u = true) -> In v y ->
    (B2R v <= B2R (@fmax fo y))%R.
  Proof.
    intros Fy Hv. change (B2R v <= B2R (fold_right (fun a b : b32 => if Bltb a b then b else a) (hd b32_0 y) y))%R.
    assert (Fd : is_finite (hd b32_0 y) = true) by (destruct y; [reflexivity | apply Fy; now left]).
    revert Fd. generalize (hd b32_0 y). intros d Fd.
    assert (H : is_finite (fold_right (fun a b : b32 => if Bltb a b then b else a) d y) = true /\
      (forall v, In v y -> (B2R v <= B2R (fold_right (fun a b : b32 => if Bltb a b then b else a) d y))%R)).
    { clear v Hv. induction y as [| a l IH]; [now split |]. cbn [fold_right].
      destruct IH as [Fm IH]; [intros u Hu; apply Fy; now right |]. assert (Fa : is_finite a = true) by (apply Fy; now left).
      rewrite Bltb_correct by assumption. destruct (Rlt_bool_spec (B2R a) (B2R (fold_right (fun a b : b32 => if Bltb a b then b else a) d l))) as [L | L].
      - split; [exact Fm |]. intros v [<- | Hv]; [lra | now apply IH].
      - split; [exact Fa |]. intros v [<- | Hv]; [lra |]. apply Rle_trans with (1 := IH v Hv). exact L. }
    now apply H.
  Qed.

  Lemma fmin_le (y : list b32) (v : b32) : (forall u, In u y -> is_finite u = true) -> In v y ->
    (B2R (@fmin fo y) <= B2R v)%R.
  Proof.
    intros Fy Hv. change (B2R (fold_right (fun a b : b32 => if Bltb b a then b else a) (hd b32_0 y) y) <= B2R v)%R.
    assert (Fd : is_finite (hd b32_0 y) = true) by (destruct y; [reflexivity | apply Fy; now left]).
    revert Fd. generalize (hd b32_0 y). intros d Fd.
    assert (H : is_finite (fold_right (fun a b : b32 => if Bltb b a then b else a) d y) = true /\
      (forall v, In v y -> (B2R (fold_right (fun a b : b32 => if Bltb b a then b else a) d y) <= B2R v)%R)).
    { clear v Hv. induction y as [| a l IH]; [now split |]. cbn [fold_right].
      destruct IH as [Fm IH]; [intros u Hu; apply Fy; now right |]. assert (Fa : is_finite a = true) by (apply Fy; now left).
      rewrite Bltb_correct by assumption. destruct (Rlt_bool_spec (B2R (fold_right (fun a b : b32 => if Bltb b a then b else a) d l)) (B2R a)) as [L | L].
      - split; [exact Fm |]. intros v [<- | Hv]; [lra | now apply IH].
      - split; [exact Fa |]. intros v [<- | Hv]; [lra |]. apply Rle_trans with (2 := IH v Hv). exact L. }
    now apply H.
  Qed.

  Lemma scale_many (y : list b32) (k : b32) : 2 <= zlen y ->
    @scale_of fo y k = Bdiv mode_NE (Bminus mode_NE (@fmax fo y) (@fmin fo y)) (Bmult mode_NE (b32_of 2 0) k).
  Proof.
    intros N. unfold scale_of. assert (E : (@zlen (@F fo) y <? 2) = false) by (now apply Z.ltb_ge). now rewrite E.
  Qed.

  (** C56. If all the responses are equal, none of the standardised responses is
      a number (they are infinities or nan), nor is the scaled prior parameter
      of the noise, whatever the offset, [k] and [lamda]. *)
  Theorem C56_constant : forall (y : list b32) (k offset lamda : b32), 2 <= zlen y ->
    (forall v, In v y -> is_finite v = true) -> (forall u v, In u y -> In v y -> B2R u = B2R v) ->
    let scale := @scale_of fo y k in
    (forall v, In v (@standardize fo y offset scale) -> is_finite v = false) /\
    is_finite (@scaled_lamda fo lamda scale : b32) = false.
  Proof.
    intros y k offset lamda N Fy C scale.
    assert (Ny : y <> []) by (intros ->; unfold zlen in N; cbn [length] in N; lia).
    assert (S : (exists s, scale = B754_zero s) \/ scale = B754_nan).
    { rewrite (scale_many y k N : scale = _).
      pose proof (fmax_in y Ny) as Im. pose proof (fmin_in y Ny) as Il.
      set (m := @fmax fo y : b32) in *. set (l := @fmin fo y : b32) in *.
      destruct (b32_sub_ok m l 0) as (Ff & E); [now apply Fy | now apply Fy | lia | |].
      { rewrite (C m l Im Il), Rminus_diag_eq, Rabs_R0 by reflexivity. apply bpow_ge_0. }
      rewrite (C m l Im Il), Rminus_diag_eq, round_0 in E by (reflexivity || apply valid_rnd_round_mode).
      destruct (Bminus mode_NE m l) as [s | s | | s mm ee Hm]; try discriminate Ff.
      - destruct (Bmult mode_NE (b32_of 2 0) k) as [t | t | | t mm ee Hm]; [right | left | right | left]; try reflexivity;
          (eexists; reflexivity).
      - exfalso. revert E. apply (F2R_neq_0 radix2 (Float radix2 (cond_Zopp s (Zpos mm)) ee)). destruct s; discriminate. }
    split.
    - intros v Hv. unfold standardize in Hv. apply in_map_iff in Hv. destruct Hv as (u & <- & _). apply div_bad, S.
    - apply div_bad. destruct S as [[s ->] | ->]; [left; exists (xorb s s); reflexivity | now right].
  Qed.

  (** C56. If two responses differ by at least 2^-60, and the responses, the
      offset and [k] are not extreme, the scale is a positive number and so are
      numbers all the standardised responses. *)
  Theorem C56_finite : forall (y : list b32) (k offset : b32),
    (forall v, In v y -> is_finite v = true /\ (Rabs (B2R v) <= bpow radix2 40)%R) ->
    is_finite offset = true -> (Rabs (B2R offset) <= bpow radix2 40)%R ->
    is_finite k = true -> (bpow radix2 (-20) <= B2R k <= bpow radix2 20)%R ->
    (exists u v, In u y /\ In v y /\ bpow radix2 (-60) <= B2R v - B2R u)%R ->
    let scale := @scale_of fo y k in
    is_finite (scale : b32) = true /\ (0 < B2R (scale : b32))%R /\
    (forall v, In v (@standardize fo y offset scale) -> is_finite v = true).
  Proof.
    intros y k offset Hy Fo Bo Fk Bk (u & v & Hu & Hv & D) scale.
    assert (Fy : forall w, In w y -> is_finite w = true) by (intros w Hw; now apply Hy).
    assert (N : 2 <= zlen y).
    { destruct y as [| a [| b l]]; [easy | | unfold zlen; cbn [length]; lia]. exfalso.
      destruct Hu as [<- | []], Hv as [<- | []]. pose proof (bpow_gt_0 radix2 (-60)). lra. }
    assert (Ny : y <> []) by (intros ->; easy).
    assert (S : is_finite (scale : b32) = true /\ (bpow radix2 (-81) <= B2R (scale : b32))%R).
    { rewrite (scale_many y k N : scale = _).
      pose proof (fmax_in y Ny) as Im. pose proof (fmin_in y Ny) as Il.
      pose proof (fmax_ge y v Fy Hv) as Gm. pose proof (fmin_le y u Fy Hu) as Gl.
      set (m := @fmax fo y : b32) in *. set (l := @fmin fo y : b32) in *.
      destruct (Hy m Im) as (Fm & Bm). destruct (Hy l Il) as (Fl & Bl).
      assert (U : (B2R m - B2R l <= bpow radix2 41)%R).
      { replace (bpow radix2 41) with (2 * bpow radix2 40)%R by (symmetry; exact (bpow_twice 40)).
        apply Rabs_le_inv in Bm, Bl. lra. }
      destruct (b32_sub_ok m l 41 Fm Fl) as (Fd & Ed); [lia | |].
      { rewrite Rabs_pos_eq; [exact U |]. pose proof (bpow_gt_0 radix2 (-60)). lra. }
      assert (Ld : (bpow radix2 (-60) <= B2R (Bminus mode_NE m l) <= bpow radix2 41)%R).
      { rewrite Ed. split; [apply rnd_lower; [lia | lra] |].
        apply Rle_trans with (1 := Rle_abs _). apply rnd_upper; [lia |].
        rewrite Rabs_pos_eq; [exact U |]. pose proof (bpow_gt_0 radix2 (-60)). lra. }
      assert (E2 : B2R (b32_of 2 0) = 2%R) by (cbv; lra).
      assert (K : (bpow radix2 (-19) <= B2R (b32_of 2 0) * B2R k <= bpow radix2 21)%R).
      { rewrite E2. pose proof (bpow_twice (-20)). pose proof (bpow_twice 20).
        change (-20 + 1) with (-19) in *. change (20 + 1) with 21 in *. lra. }
      destruct (b32_mul_ok (b32_of 2 0) k 21) as (F2 & Ek); [reflexivity | exact Fk | lia | |].
      { rewrite Rabs_pos_eq; [lra |]. pose proof (bpow_gt_0 radix2 (-19)). lra. }
      assert (Lk : (bpow radix2 (-19) <= B2R (Bmult mode_NE (b32_of 2 0) k) <= bpow radix2 21)%R).
      { rewrite Ek. split; [apply rnd_lower; [lia | lra] |].
        apply Rle_trans with (1 := Rle_abs _). apply rnd_upper; [lia |].
        rewrite Rabs_pos_eq; [lra |]. pose proof (bpow_gt_0 radix2 (-19)). lra. }
      set (d := Bminus mode_NE m l) in *. set (q := Bmult mode_NE (b32_of 2 0) k) in *.
      pose proof (bpow_gt_0 radix2 (-19)) as P19. pose proof (bpow_gt_0 radix2 (-60)) as P60.
      assert (Q : (bpow radix2 (-81) <= B2R d / B2R q <= bpow radix2 60)%R).
      { split.
        - replace (bpow radix2 (-81)) with (bpow radix2 (-60) / bpow radix2 21)%R
            by (unfold Rdiv; rewrite <- bpow_opp, <- bpow_plus; reflexivity).
          unfold Rdiv. apply Rmult_le_compat; [lra | apply Rlt_le, Rinv_0_lt_compat, bpow_gt_0 | lra |].
          apply Rinv_le_contravar; lra.
        - replace (bpow radix2 60) with (bpow radix2 41 / bpow radix2 (-19))%R
            by (unfold Rdiv; rewrite <- bpow_opp, <- bpow_plus; reflexivity).
          unfold Rdiv. apply Rmult_le_compat; [lra | apply Rlt_le, Rinv_0_lt_compat; lra | lra |].
          apply Rinv_le_contravar; lra. }
      destruct (b32_div_ok d q 60 Fd) as (Fs & Es); [lra | lia | |].
      { rewrite Rabs_pos_eq; [lra |]. pose proof (bpow_gt_0 radix2 (-81)). lra. }
      split; [exact Fs |]. rewrite Es. apply rnd_lower; [lia | lra]. }
    destruct S as (Fs & Ls). pose proof (bpow_gt_0 radix2 (-81)) as P81.
    split; [exact Fs |]. split; [lra |].
    intros w Hw. unfold standardize in Hw. apply in_map_iff in Hw. destruct Hw as (x & <- & Hx).
    destruct (Hy x Hx) as (Fx & Bx). cbn [F ops32 fdiv fsub].
    assert (U : (Rabs (B2R x - B2R offset) <= bpow radix2 41)%R).
    { replace (bpow radix2 41) with (2 * bpow radix2 40)%R by (symmetry; exact (bpow_twice 40)).
      apply Rabs_le_inv in Bx, Bo. apply Rabs_le. lra. }
    destruct (b32_sub_ok x offset 41 Fx Fo) as (Fd & Ed); [lia | exact U |].
    refine (proj1 (b32_div_ok _ scale 122 Fd _ _ _)); [lra | lia |].
    unfold Rdiv. rewrite Rabs_mult, Rabs_inv, (Rabs_pos_eq (B2R scale)) by lra.
    replace (bpow radix2 122) with (bpow radix2 41 * / bpow radix2 (-81))%R
      by (rewrite <- bpow_opp, <- bpow_plus; reflexivity).
    apply Rmult_le_compat; [apply Rabs_pos | apply Rlt_le, Rinv_0_lt_compat; lra | rewrite Ed; apply rnd_upper; [lia | exact U] |].
    apply Rinv_le_contravar; lra.
  Qed.
End Float32.

(** ** The chain with responses that are not numbers *)

Lemma add_bad_l (a b : b32) : is_finite a = false -> is_finite (b32_add a b) = false.
Proof. destruct a as [| [] | |], b as [| [] | |]; intros H; try discriminate H; reflexivity. Qed.
Lemma add_bad_r (a b : b32) : is_finite b = false -> is_finite (b32_add a b) = false.
Proof. destruct a as [| [] | |], b as [| [] | |]; intros H; try discriminate H; reflexivity. Qed.
Lemma square_bad (a : b32) : is_finite a = false -> is_finite (Bmult mode_NE a a) = false.
Proof. destruct a as [| [] | |]; intros H; try discriminate H; reflexivity. Qed.
Lemma quotient_bad (a b : b32) : is_finite a = false -> is_finite (Bdiv mode_NE a b) = false.
Proof. destruct a as [| [] | |], b as [| [] | |]; intros H; try discriminate H; reflexivity. Qed.

Section Chain.
  Variables log log1p : b32 -> b32.
  Notation fo := (ops32 log log1p).
  Context {zo : zoob} {foo : foob fo}.

  (** entries that are not numbers stay so *)
  Definition worse (l l' : list b32) : Prop := forall i r r', nth_error l i = Some r -> nth_error l' i = Some r' ->
    is_finite r = false -> is_finite r' = false.

  Lemma worse_add (l d : list b32) : worse l (map2 b32_add l d).
  Proof.
    revert d. induction l as [| a l IH]; intros d i r r' H H'; [destruct i; discriminate |].
    destruct d as [| b d]; [destruct i; discriminate |]. cbn [map2] in H'. destruct i as [| i]; cbn [nth_error] in H, H'.
    - injection H as <-. injection H' as <-. apply add_bad_l.
    - exact (IH d i r r' H H').
  Qed.

  Lemma stage_worse rbs mp ef : forall ss (r : list b32),
    let r' := fst (@sequential_stage fo foo rbs mp ef r ss) : list b32 in
    (length r' <= length r)%nat /\ worse r r'.
  Proof.
    induction ss as [| s ss IH]; intros r; cbn [sequential_stage].
    - split; [apply le_n |]. intros i x x' H H'. cbn [fst] in H'. congruence.
    - set (r1 := fst (@accept_move_and_sample_leaves fo foo rbs mp ef r s) : list b32).
      assert (E1 : exists d, r1 = map2 b32_add r d) by (eexists; reflexivity).
      assert (E : fst (let '(resid, a) := @accept_move_and_sample_leaves fo foo rbs mp ef r s in
          let '(resid0, rest) := @sequential_stage fo foo rbs mp ef resid ss in (resid0, a :: rest)) =
        fst (@sequential_stage fo foo rbs mp ef r1 ss)).
      { unfold r1. destruct (@accept_move_and_sample_leaves fo foo rbs mp ef r s) as [q a]. cbn [fst].
        destruct (@sequential_stage fo foo rbs mp ef q ss) as [q' aa]. reflexivity. }
      cbv zeta. rewrite E. clear E. destruct (IH r1) as [L W]. cbv zeta in L, W.
      destruct E1 as [d E1].
      assert (L1 : (length r1 <= length r)%nat).
      { rewrite E1. clear. revert d. induction r as [| a r IH]; intros [| b d]; cbn [map2 length]; [lia | lia | lia | specialize (IH d); lia]. }
      split; [lia |]. intros i x x' H H' B.
      assert (H1 : exists y, nth_error r1 i = Some y).
      { destruct (nth_error r1 i) as [y |] eqn:Ey; [now exists y |]. apply nth_error_None in Ey.
        assert (i < length (fst (@sequential_stage fo foo rbs mp ef r1 ss) : list b32))%nat by (apply nth_error_Some; congruence). lia. }
      destruct H1 as [y Hy]. apply (W i y x' Hy H'). pose proof (worse_add r d) as Wa. rewrite <- E1 in Wa. exact (Wa i x y H Hy B).
  Qed.

  Lemma step_worse (g : rng fo) (b : @bart fo) k : worse (resid b) (resid (step (g := g) b k)).
  Proof.
    unfold step, sample_sigma, sample_trees, accept_moves_and_sample_leaves. cbn [set_sigma2 resid]. cbv zeta.
    match goal with |- context [sequential_stage ?a ?b ?c ?d ?e] => pose proof (proj2 (stage_worse a b c e d)) as W;
      destruct (sequential_stage a b c d e) as [q aa] end.
    exact W.
  Qed.

  (** C56. A response that is not a number gives a residual that is not a number
      in every state of the chain, and a noise variance that is not a number after
      every step, whatever the draws. *)
  Theorem C56_bad_response : forall (s : @settings fo) (b : @bart fo) i (v : b32), settings_ok s -> reached s b ->
    nth_error (i_y s) i = Some v -> is_finite v = false ->
    (exists r : b32, nth_error (resid b) i = Some r /\ is_finite r = false) /\
    forall (g : rng fo) k, rlaws g -> is_finite (sigma2 (step (g := g) b k) : b32) = false.
  Proof.
    intros s b i v OK RE Hv BV.
    assert (R : forall b, reached s b -> exists r : b32, nth_error (resid b) i = Some r /\ is_finite r = false).
    { clear b RE. intros b RE. induction RE as [| b g k rl RE IH]; [exists v; now split |].
      destruct IH as (r & Hr & Br).
      assert (LN : forall b, reached s b -> length (resid b) = length (i_y s)).
      { intros b1 R1. pose proof (in_resid _ (reached_inv s OK b1 R1)) as L.
        destruct (reached_fields s b1 R1) as (EX & _). rewrite EX, (ok_n _ OK) in L. unfold zlen in L. lia. }
      assert (RE' : reached s (step (g := g) b k)) by (apply reached_step; auto).
      destruct (nth_error (resid (step (g := g) b k)) i) as [r' |] eqn:E.
      - exists r'. split; [reflexivity |]. exact (step_worse g b k i r r' Hr E Br).
      - exfalso. apply nth_error_None in E. rewrite (LN _ RE') in E.
        assert (i < length (i_y s))%nat by (apply nth_error_Some; congruence). lia. }
    split; [now apply R |]. intros g k rl. destruct (R (step (g := g) b k)) as (r & Hr & Br); [now apply reached_step |].
    revert Hr. unfold step, sample_sigma, set_sigma2. cbn [sigma2 resid]. set (l := resid (sample_trees b (KSplit k 2 1))).
    intros Hr. apply quotient_bad, add_bad_r, quotient_bad. unfold dot.
    change (is_finite (fold_left b32_add (map2 (Bmult mode_NE) l l) b32_0) = false).
    assert (K : forall q (z : b32), is_finite z = false -> is_finite (fold_left b32_add q z) = false).
    { induction q as [| a q IH]; intros z Hz; [exact Hz |]. cbn [fold_left]. apply IH. now apply add_bad_l. }
    generalize b32_0. clearbody l. revert i Hv Hr R. clear -K Br. intros i _ Hr _. revert i Hr.
    induction l as [| a l IH]; intros i Hr z; [destruct i; discriminate |]. cbn [map2 fold_left].
    destruct i as [| i]; cbn [nth_error] in Hr.
    - injection Hr as ->. apply K, add_bad_r, square_bad, Br.
    - exact (IH i Hr _).
  Qed.
End Chain.

Print Assumptions C56_constant.
Print Assumptions C56_finite.
Print Assumptions C56_bad_response.

(** The hypotheses are met by simple responses: three times 7 with offset 7 gives
    nan, and 1, 2, 4 with k = 2 and offset 2 gives -4/3, 0, 8/3 rounded. *)
Module Example.
  Definition b (z : Z) : b32 := b32_of z 0.
  Definition id32 (x : b32) : b32 := x.
  Definition y_const : list b32 := [b 7; b 7; b 7].
  Definition y_ok : list b32 := [b 1; b 2; b 4].

  Example constant_nan :
    @standardize (ops32 id32 id32) y_const (b 7) (@scale_of (ops32 id32 id32) y_const (b 2)) =
    [B754_nan; B754_nan; B754_nan].
  Proof. vm_compute. reflexivity. Qed.

  Example constant_case : 2 <= zlen y_const /\ (forall v, In v y_const -> is_finite v = true) /\
    (forall u v, In u y_const -> In v y_const -> B2R u = B2R v).
  Proof.
    split; [vm_compute; discriminate |]. split.
    - intros v [<- | [<- | [<- | []]]]; reflexivity.
    - intros u v [<- | [<- | [<- | []]]] [<- | [<- | [<- | []]]]; reflexivity.
  Qed.

  Example finite_case :
    is_finite (@scale_of (ops32 id32 id32) y_ok (b 2) : b32) = true /\
    forall v, In v (@standardize (ops32 id32 id32) y_ok (b 2) (@scale_of (ops32 id32 id32) y_ok (b 2))) -> is_finite v = true.
  Proof.
    assert (E1 : B2R (b 1) = 1%R) by (cbv; lra). assert (E2 : B2R (b 2) = 2%R) by (cbv; lra).
    assert (E4 : B2R (b 4) = 4%R) by (cbv; lra).
    assert (B40 : (4 <= bpow radix2 40)%R) by (apply (bpow_le radix2 2 40); lia).
    assert (B20 : (bpow radix2 (-20) <= 1)%R) by (apply (bpow_le radix2 (-20) 0); lia).
    assert (B60 : (bpow radix2 (-60) <= 1)%R) by (apply (bpow_le radix2 (-60) 0); lia).
    assert (A20 : (2 <= bpow radix2 20)%R) by (apply (bpow_le radix2 1 20); lia).
    destruct (C56_finite id32 id32 y_ok (b 2) (b 2)) as (Fs & _ & H).
    - intros v [<- | [<- | [<- | []]]]; (split; [reflexivity |]); rewrite ?E1, ?E2, ?E4; rewrite Rabs_pos_eq; lra.
    - reflexivity.
    - rewrite E2, Rabs_pos_eq; lra.
    - reflexivity.
    - rewrite E2. lra.
    - exists (b 1), (b 2). rewrite E1, E2. repeat split; [now left | right; now left | lra].
    - split; [exact Fs | exact H].
  Qed.

  (** a chain whose second response is nan *)
  Definition bad_settings : @settings ops_ex := {|
    i_X := i_X ex_settings;
    i_y := (b 1 : @F ops_ex) :: (B754_nan : @F ops_ex) :: map (fun z => b z : @F ops_ex) [2; 0; 3; 1];
    i_max_split := i_max_split ex_settings; i_split_bits := i_split_bits ex_settings; i_num_trees := 3;
    i_p_nonterminal := i_p_nonterminal settings32;
    i_sigma2_alpha := b 1 : @F ops_ex; i_sigma2_beta := b 1 : @F ops_ex;
    i_min_points := Some 1; i_resid_batch := Some 2; i_count_batch := None; i_save_ratios := false
  |}.

  Example bad_case : settings_ok bad_settings /\ nth_error (i_y bad_settings) 1 = Some (B754_nan : @F ops_ex).
  Proof.
    split; [| reflexivity]. destruct float32_example as [OK _].
    constructor; [exact (ok_depth _ OK) | reflexivity | reflexivity | exact (ok_p _ OK) | exact (ok_bits _ OK) | exact (ok_max_split _ OK) |
      exact (ok_overflow _ OK) | exact (ok_p_nonterminal _ OK) | discriminate |].
    intros k H. injection H as <-. lia.
  Qed.
End Example.
