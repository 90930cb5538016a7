(** Proofs about [gbart]. *)
From Coq Require Import String ZArith List Bool Reals Lia Lra.
From Verif Require Import Base LemBase Laws ModelJaxext ModelGrove ModelStep ModelLoop ModelPrep ModelBART
  SpecTree SpecRun SpecLoop SpecPrep SpecBART ProofRun ProofPrep PropPrep PropLoop PropForest PropTree PropTypes.
Import ListNotations.
Open Scope Z_scope.

(** ** Sums *)
Lemma fold_left_Rplus l : forall a, fold_left Rplus l a = (a + fold_right Rplus 0 l)%R.
Proof.
  induction l as [| x l IH]; intros a; cbn [fold_left fold_right]; [lra |]. rewrite IH. lra.
Qed.
Lemma rsum_fold l : rsum l = fold_right Rplus 0%R l.
Proof. unfold rsum. rewrite fold_left_Rplus. lra. Qed.

Lemma rsum_affine a b l : rsum (map (fun v => a + b * v)%R l) = (IZR (zlen l) * a + b * rsum l)%R.
Proof.
  rewrite !rsum_fold. induction l as [| x l IH]; cbn [map fold_right]; [rewrite zlen_nil; lra |].
  rewrite IH, zlen_cons, plus_IZR. lra.
Qed.
Lemma rsum_scale b l : rsum (map (fun v => b * v)%R l) = (b * rsum l)%R.
Proof.
  rewrite !rsum_fold. induction l as [| x l IH]; cbn [map fold_right]; lra.
Qed.

Lemma minimal_unsigned_bits_slack : forall x, 0 <= x < 2 ^ 63 ->
  x < 2 ^ minimal_unsigned_bits x - 1 \/ exists k, In k [8; 16; 32] /\ x = 2 ^ k - 1.
Proof.
  intros x Hx. unfold minimal_unsigned_bits.
  destruct (Z.ltb_spec x (2 ^ 8)); [| destruct (Z.ltb_spec x (2 ^ 16)); [| destruct (Z.ltb_spec x (2 ^ 32))]].
  - destruct (Z.eq_dec x (2 ^ 8 - 1)); [right; exists 8; split; [cbn; auto | auto] | left; lia].
  - destruct (Z.eq_dec x (2 ^ 16 - 1)); [right; exists 16; split; [cbn; auto | auto] | left; lia].
  - destruct (Z.eq_dec x (2 ^ 32 - 1)); [right; exists 32; split; [cbn; auto | auto] | left; lia].
  - left. change (2 ^ 64) with (2 * 2 ^ 63). lia.
Qed.

Section Affine.
  Variables a b : R.
  Hypothesis Hb : (0 < b)%R.
  Let f (v : R) : R := (a + b * v)%R.

  Lemma rmean_affine l : 1 <= zlen l -> rmean (map f l) = f (rmean l).
  Proof.
    intros H. unfold rmean, f. rewrite rsum_affine, zlen_map.
    assert (0 < IZR (zlen l))%R by (apply IZR_lt; lia). field. lra.
  Qed.

  Lemma rmin_affine l : l <> [] -> rmin (map f l) = f (rmin l) /\ rmax (map f l) = f (rmax l).
  Proof.
    intros NE. assert (NE' : map f l <> []) by (destruct l; [easy | discriminate]).
    apply (extremes_unique (map f l)).
    - destruct (rmin_extreme _ NE'), (rmax_extreme _ NE'). split; auto.
    - destruct (rmin_extreme _ NE) as [P1 P2], (rmax_extreme _ NE) as [P3 P4].
      split; [now apply in_map |]. split; [now apply in_map |].
      intros v Hv. apply in_map_iff in Hv as (w & <- & Hw). unfold f.
      specialize (P2 w Hw). specialize (P4 w Hw). split; apply Rplus_le_compat_l, Rmult_le_compat_l; lra.
  Qed.

  Lemma scale_affine l k : 2 <= zlen l -> process_scale (map f l) k = (b * process_scale l k)%R.
  Proof.
    intros H. unfold process_scale. rewrite zlen_map.
    destruct (Z.ltb_spec (zlen l) 2); [lia |].
    destruct (rmin_affine l) as [-> ->]; [intros ->; rewrite zlen_nil in H; lia |]. unfold f, Rdiv. ring.
  Qed.

  Lemma offset_affine l o : 1 <= zlen l ->
    process_offset (map f l) (option_map f o) = f (process_offset l o).
  Proof.
    intros H. destruct o as [o |]; [reflexivity |]. cbn [option_map process_offset]. rewrite zlen_map.
    destruct (Z.ltb_spec (zlen l) 1); [lia |]. now apply rmean_affine.
  Qed.

  Lemma rvar_scale l : 1 <= zlen l -> rvar (map (fun v => b * v)%R l) = (b * b * rvar l)%R.
  Proof.
    intros H. unfold rvar. rewrite zlen_map.
    assert (M : rmean (map (fun v => b * v)%R l) = (b * rmean l)%R).
    { unfold rmean. rewrite rsum_scale, zlen_map. unfold Rdiv. ring. }
    rewrite map_map, M.
    rewrite (map_ext _ (fun v => (b * b) * ((v - rmean l) * (v - rmean l)))%R) by (intros; ring).
    rewrite <- (map_map (fun v => (v - rmean l) * (v - rmean l))%R (fun v => (b * b) * v)%R).
    rewrite rsum_scale. unfold Rdiv. ring.
  Qed.

  Context {ex : external} {EX : external_ok ex}.

  Lemma rss_scale A y coef :
    rss A (map (fun v => b * v)%R y) (map (fun v => b * v)%R coef) = (b * b * rss A y coef)%R.
  Proof.
    unfold rss. revert y. induction A as [| row A IH]; intros [| v y]; cbn [map map2 fold_right]; try lra.
    rewrite IH.
    assert (D : (fold_right Rplus 0 (map2 Rmult row (map (fun v => b * v) coef)) =
                 b * fold_right Rplus 0 (map2 Rmult row coef))%R).
    { clear. revert coef. induction row as [| x row IH]; intros [| c coef]; cbn [map map2 fold_right]; try lra.
      rewrite IH. lra. }
    rewrite D. ring.
  Qed.

  Lemma chisq_scale A y : fst (lstsq A (map (fun v => b * v)%R y)) = (b * b * fst (lstsq A y))%R.
  Proof.
    assert (Hbb : (0 < b * b)%R) by nra.
    apply Rle_antisym.
    - assert (H : (/ (b * b) * fst (lstsq A (map (fun v => b * v) y)) <= fst (lstsq A y))%R).
      { apply ex_greatest. intros coef.
        apply Rmult_le_reg_l with (b * b)%R; auto.
        rewrite <- Rmult_assoc, Rinv_r, Rmult_1_l by lra. rewrite <- rss_scale. apply ex_lower. }
      apply Rmult_le_compat_l with (r := (b * b)%R) in H; [| lra].
      rewrite <- Rmult_assoc, Rinv_r, Rmult_1_l in H by lra. exact H.
    - apply ex_greatest. intros coef.
      assert (E : coef = map (fun v => b * v)%R (map (fun v => / b * v)%R coef)).
      { rewrite map_map. rewrite <- (map_id coef) at 1. apply map_ext. intros v. field. lra. }
      rewrite E, rss_scale. apply Rmult_le_compat_l; [lra |]. apply ex_lower.
  Qed.

  Lemma noise_affine x l sigest df q lamda o : 2 <= zlen l ->
    process_noise_variance x (map f l) (option_map (fun v => b * v)%R sigest) df q
      (option_map (fun v => b * b * v)%R lamda) (f o) =
    ((b * b * fst (process_noise_variance x l sigest df q lamda o))%R,
     option_map (fun v => b * v)%R (snd (process_noise_variance x l sigest df q lamda o))).
  Proof.
    intros H. unfold process_noise_variance. destruct lamda as [la |]; [reflexivity |]. cbn [option_map].
    assert (G : forall s2 s2', s2' = (b * b * s2)%R ->
      ((s2' / (invgamma_ppf q (df / 2) / 2 * df))%R, Some (sqrt s2')) =
      ((b * b * fst (s2 / (invgamma_ppf q (df / 2) / 2 * df), Some (sqrt s2)))%R,
       option_map (fun v => b * v)%R (snd ((s2 / (invgamma_ppf q (df / 2) / 2 * df))%R, Some (sqrt s2))))).
    { intros s2 s2' ->. cbn [fst snd option_map]. f_equal.
      - unfold Rdiv. ring.
      - f_equal. rewrite sqrt_mult_alt by nra. now rewrite sqrt_square by lra. }
    destruct sigest as [se |].
    - cbn [option_map]. apply G. ring.
    - cbn [option_map]. apply G. rewrite zlen_map.
      destruct (Z.ltb_spec (zlen l) 2); [lia |].
      destruct (zlen l <=? zlen x).
      + rewrite map_map. rewrite (map_ext _ (fun v => b * (v - o))%R) by (intros; unfold f; ring).
        rewrite <- (map_map (fun v => v - o)%R (fun v => b * v)%R). apply rvar_scale.
        rewrite zlen_map. lia.
      + rewrite rmean_affine by lia. rewrite map_map.
        rewrite (map_ext _ (fun v => b * (v - rmean l))%R) by (intros; unfold f; ring).
        rewrite <- (map_map (fun v => v - rmean l)%R (fun v => b * v)%R).
        set (A := map _ (columns 0%R x)). set (y := map (fun v => v - rmean l)%R l).
        pose proof (chisq_scale A y) as C. pose proof (ex_rank A (map (fun v => b * v)%R y) y) as K.
        destruct (lstsq A (map (fun v => b * v)%R y)) as [c' r']. destruct (lstsq A y) as [c r].
        cbn [fst snd] in C, K. subst. unfold Rdiv. ring.
  Qed.

  Lemma transform_affine l o s : s <> 0%R -> transform_input (map f l) (f o) (b * s)%R = transform_input l o s.
  Proof.
    intros Hs. unfold transform_input. rewrite map_map. apply map_ext. intros v. unfold f. field. lra.
  Qed.

  Lemma scale_nonzero l k : 2 <= zlen l -> (exists u v, In u l /\ In v l /\ u <> v) -> k <> 0%R ->
    process_scale l k <> 0%R.
  Proof.
    intros H (u & v & Hu & Hv & N) Hk. unfold process_scale. destruct (Z.ltb_spec (zlen l) 2); [lia |].
    assert (NE : l <> []) by (intros ->; easy).
    destruct (rmin_extreme _ NE) as [_ P2], (rmax_extreme _ NE) as [_ P4].
    pose proof (P2 u Hu). pose proof (P2 v Hv). pose proof (P4 u Hu). pose proof (P4 v Hv).
    assert (rmax l - rmin l <> 0)%R by (intros E; apply N; lra).
    unfold Rdiv. apply Rmult_integral_contrapositive. split; auto. apply Rinv_neq_0_compat. lra.
  Qed.

  Lemma prepare_affine g : 2 <= zlen (y_train g) ->
    (exists u v, In u (y_train g) /\ In v (y_train g) /\ u <> v) -> a_k g <> 0%R ->
    prepare (affine a b g) =
      let '(s, (offset, scale, lamda, sigest, splits)) := prepare g in
      (s, (f offset, b * scale, b * b * lamda, option_map (fun v => b * v) sigest, splits))%R.
  Proof.
    intros H NC Hk. unfold prepare.
    cbn [affine x_train y_train usequants a_sigest sigdf sigquant a_k power base maxdepth a_lamda a_offset
         ntree numcut ndpost nskip keepevery printevery seed initkw].
    change (fun v => a + b * v)%R with f.
    rewrite offset_affine by lia. rewrite scale_affine by lia. rewrite noise_affine by lia.
    destruct (process_noise_variance _ _ _ _ _ _ _) as [lamda sigest]. cbn [fst snd].
    destruct (determine_splits _ _ _) as [[splits ms] bits].
    rewrite transform_affine by (apply scale_nonzero; auto).
    assert (Hs : process_scale (y_train g) (a_k g) <> 0%R) by (apply scale_nonzero; auto).
    replace (b * b * lamda / (b * process_scale (y_train g) (a_k g) * (b * process_scale (y_train g) (a_k g))))%R
      with (lamda / (process_scale (y_train g) (a_k g) * process_scale (y_train g) (a_k g)))%R; [reflexivity |].
    field. lra.
  Qed.
End Affine.

(** ** Preparation of the predictors *)
Section Prepared.
  Context {ex : external}.

  Lemma nth_error_map2 A B C (h : A -> B -> C) l l' i x x' :
    nth_error l i = Some x -> nth_error l' i = Some x' -> nth_error (map2 h l l') i = Some (h x x').
  Proof.
    revert l' i. induction l as [| u l IH]; intros [| v l'] [| i] H1 H2; try discriminate; cbn in *.
    - injection H1 as ->. now injection H2 as ->.
    - now apply IH.
  Qed.

  Lemma ext_lt_Some x y : ext_lt (Some x) (Some y) = Rltb x y.
  Proof. reflexivity. Qed.

  Lemma uniform_nondecreasing x nb splits i row : 1 <= nb -> nth_error x i = Some row -> row <> [] ->
    nth_error (fst (uniform_splits_from_matrix x nb)) i = Some splits ->
    nondecreasing ext_lt (map Some splits).
  Proof.
    intros Hnb E NE ES.
    destruct (rmin_extreme _ NE) as [M1 M2], (rmax_extreme _ NE) as [M3 M4].
    assert (EX : extremes row (rmin row) (rmax row)) by (split; auto).
    destruct (C26_inside x nb i row _ _ splits Hnb E EX ES) as [H1 H2].
    assert (G : forall j k c c', (j < k)%nat -> nth_error splits j = Some c -> nth_error splits k = Some c' -> (c <= c')%R).
    { intros j k c c' Hjk Hj Hk. destruct (Rlt_or_le (rmin row) (rmax row)) as [L | L].
      - apply H1 in L as [_ L]. left. eapply L; eauto.
      - assert (L' : rmin row = rmax row) by (specialize (M2 _ M3); lra).
        rewrite (H2 L' c (nth_error_In _ _ Hj)), (H2 L' c' (nth_error_In _ _ Hk)). lra. }
    clear -G. induction splits as [| c sp IH]; cbn [map]; [constructor |].
    constructor.
    - apply IH. intros j k u v Hjk Hj Hk. apply (G (S j) (S k) u v); auto; lia.
    - apply Forall_forall. intros z Hz. apply in_map_iff in Hz as (v & <- & Hv).
      apply In_nth_error in Hv as [k Hk]. rewrite ext_lt_Some. apply Rltb_false.
      apply (G 0%nat (S k)); auto; lia.
  Qed.

  Variable a : gbart_args.
  Hypothesis OK : args_ok a.
  Let n := zlen (y_train a).
  Let splits := fst (fst (determine_splits (x_train a) (usequants a) (numcut a))).
  Let max_split := snd (fst (determine_splits (x_train a) (usequants a) (numcut a))).
  Let bits := snd (determine_splits (x_train a) (usequants a) (numcut a)).

  Lemma ncols_train : ncols (x_train a) = n.
  Proof.
    pose proof (go_p a OK) as Hp. pose proof (go_rows a OK) as Hr. unfold ncols.
    destruct (x_train a) as [| r x]; [rewrite zlen_nil in Hp; lia |]. apply Hr. now left.
  Qed.

  (** what holds of the cutpoints of each predictor *)
  Lemma nonempty_leaves_dec : nonempty_leaves a \/ ~ nonempty_leaves a.
  Proof.
    unfold nonempty_leaves. destruct (kw_min_points (initkw a)) as [[m |] |]; auto.
    - destruct (Z.le_gt_cases 1 m); [eauto |]. right. intros [H' | (k & [= <-] & H')]; [discriminate | lia].
    - right. intros [H' | (k & H' & _)]; discriminate.
  Qed.

  Lemma splits_rows : length splits = length (x_train a) /\ length max_split = length (x_train a) /\
    forall i row, nth_error (x_train a) i = Some row ->
    exists s m, nth_error splits i = Some s /\ nth_error max_split i = Some m /\
      nondecreasing ext_lt s /\ 0 <= m <= zlen s /\ zlen s < 2 ^ 64 /\ m < 2 ^ bits /\
      (nonempty_leaves a \/ m < 2 ^ bits - 1) /\
      forall v k, In v row -> in_bin ext_lt s k (Some v) -> 0 <= k <= m.
  Proof.
    pose proof (go_n a OK) as Hn. pose proof (go_numcut a OK) as Hc.
    assert (NE : forall row, In row (x_train a) -> row <> []).
    { intros row Hr ->. pose proof (go_rows a OK [] Hr) as E. rewrite zlen_nil in E. lia. }
    unfold splits, max_split, bits, determine_splits. destruct (usequants a).
    - rewrite ncols_train.
      pose proof (C25_floats (mkoob false None) n (map (map Some) (x_train a)) (numcut a + 1)) as Q.
      match type of Q with _ -> _ -> _ -> _ -> rows_have_cutpoints _ _ _ _ _ ?r =>
        match goal with |- context [quantilized_splits_from_matrix ?f ?a ?b ?c] =>
          change (quantilized_splits_from_matrix f a b c) with r end;
        destruct r as [sp ms]
      end.
      cbn [fst snd] in *. destruct Q as (L1 & L2 & Q).
      + unfold n. lia.
      + lia.
      + intros x Hx. apply in_map_iff in Hx as (r & <- & Hr). rewrite zlen_map. now apply (go_rows a OK).
      + intros x v Hx Hv. apply in_map_iff in Hx as (r & <- & Hr). apply in_map_iff in Hv as (w & <- & _). easy.
      + cbn [fst snd] in *. rewrite map_length in *. split; auto. split; auto. intros i row E.
        pose proof (nth_error_In _ _ E) as Hrow.
        destruct (Q i (map Some row)) as (s & m & E1 & E2 & QC); [now rewrite nth_error_map, E |].
        exists s, m. split; auto. split; auto.
        destruct (C27_quantile_bins ext ext_lt ext_eqb _ evenly None (numcut a + 1) (map Some row) s m)
          as (ND & BIN & _); auto.
        { intros H. apply map_eq_nil in H. now apply (NE row). }
        { lia. }
        split; auto.
        pose proof (qc_length _ _ _ _ _ _ _ QC) as QL. rewrite map_length in QL.
        pose proof (go_rows a OK row Hrow) as HR. unfold zlen in HR.
        destruct (C24_unique ext ext_lt ext_eqb _ (map Some row) (zlen (map Some row)) None (Z.le_refl _))
          as (u & DU & _ & _).
        pose proof (qc_used _ _ _ _ _ _ _ QC u DU) as QU.
        assert (U1 : (1 <= length u <= length row)%nat).
        { split.
          - destruct row as [| r0 row]; [now apply NE in Hrow |].
            assert (H : In (Some r0) u) by (apply DU; now left). destruct u; [easy | cbn; lia].
          - rewrite <- (map_length (@Some R) row). apply NoDup_incl_length; [| intros v; now apply DU].
            destruct DU as [I _]. clear -I. induction I as [| c l SS IH Fa]; constructor; auto.
            intros Hin. rewrite Forall_forall in Fa. specialize (Fa c Hin).
            rewrite (o_irrefl (total_order := ext_order)) in Fa. discriminate. }
        unfold zlen in *.
        assert (M : m <= Z.min (numcut a + 1) n - 1) by (unfold n, zlen; lia).
        split; [lia |]. split; [lia |].
        pose proof (minimal_unsigned_bits_fits (Z.min (numcut a + 1) n - 1) ltac:(unfold n, zlen; lia)).
        split; [lia |]. split.
        * destruct (go_overflow a OK) as [NL | NO]; [now left | right].
          pose proof (minimal_unsigned_bits_slack (Z.min (numcut a + 1) n - 1)) as SL.
          destruct SL as [SL | SL]; [unfold n, zlen; lia | lia | exfalso].
          destruct SL as (k & Hk & SL). destruct (NO k Hk) as [N1 N2]. unfold n, zlen in *. lia.
        * intros v k Hv B. apply (BIN (Some v) k); auto. now apply in_map.
    - destruct (uniform_splits_from_matrix (x_train a) (numcut a + 1)) as [sp ms] eqn:EU.
      cbn [fst snd].
      assert (EU1 : sp = fst (uniform_splits_from_matrix (x_train a) (numcut a + 1))) by now rewrite EU.
      assert (EU2 : ms = snd (uniform_splits_from_matrix (x_train a) (numcut a + 1))) by now rewrite EU.
      split; [rewrite map_length, EU1; unfold uniform_splits_from_matrix; cbn [fst]; now rewrite !map_length |].
      split; [rewrite EU2; unfold uniform_splits_from_matrix; cbn [snd]; now rewrite !map_length |].
      intros i row E. pose proof (NE row (nth_error_In _ _ E)) as NEr.
      destruct (rmin_extreme _ NEr) as [M1 M2], (rmax_extreme _ NEr) as [M3 M4].
      destruct (C26_uniform (x_train a) (numcut a + 1) i row (rmin row) (rmax row)) as (s & S1 & S2 & S3 & _).
      + lia.
      + auto.
      + split; auto.
      + rewrite <- EU1 in S1. rewrite <- EU2 in S2.
        exists (map Some s), (numcut a + 1 - 1).
        split; [now rewrite nth_error_map, S1 |]. split; auto.
        split; [apply (uniform_nondecreasing (x_train a) (numcut a + 1) s i row); auto; [lia | now rewrite <- EU1] |].
        rewrite zlen_map. split; [lia |]. split; [lia |].
        pose proof (minimal_unsigned_bits_fits (numcut a + 1 - 1) ltac:(lia)).
        split; [lia |]. split.
        * destruct (go_overflow a OK) as [NL | NO]; [now left | right].
          pose proof (minimal_unsigned_bits_slack (numcut a + 1 - 1)) as SL.
          destruct SL as [SL | SL]; [lia | lia | exfalso].
          destruct SL as (k & Hk & SL). destruct (NO k Hk) as [N1 N2]. lia.
        * intros v k Hv B. destruct B as [B _]. rewrite map_length in B. unfold zlen in S3. lia.
  Qed.

  Lemma length_bin_predictors x : length x = length splits ->
    length (ModelPrep.bin_predictors ext_lt (map (map Some) x) splits) = length x.
  Proof. intros H. unfold ModelPrep.bin_predictors. rewrite length_map2, map_length. lia. Qed.

  (** columns of the binned matrix: bins of the points *)
  Lemma bin_columns_spec x m : length x = length (x_train a) ->
    (forall row, In row x -> zlen row = m) ->
    zlen (bin_columns x splits) = m /\
    forall j, (j < Z.to_nat m)%nat ->
      length (nth j (bin_columns x splits) []) = length (x_train a) /\
      forall i s r, nth_error splits i = Some s -> nth_error x i = Some r ->
      in_bin ext_lt s (nth i (nth j (bin_columns x splits) []) 0) (Some (nth j r 0%R)).
  Proof.
    intros HL HR. destruct splits_rows as (L1 & L2 & SR).
    pose proof (go_p a OK) as Hp. unfold zlen in Hp.
    assert (NC : ncols (ModelPrep.bin_predictors ext_lt (map (map Some) x) splits) = m).
    { unfold ncols, ModelPrep.bin_predictors. destruct x as [| r x]; [cbn in HL; lia |].
      destruct splits as [| s sp]; [cbn in L1; lia |]. cbn [map map2]. unfold bin_row. rewrite !zlen_map.
      apply HR. now left. }
    assert (Hm : 0 <= m).
    { rewrite <- NC. unfold ncols. destruct (ModelPrep.bin_predictors _ _ _); [lia | apply zlen_nonneg]. }
    unfold bin_columns, columns. rewrite NC. split; [rewrite zlen_map, zlen_arange; lia |].
    intros j Hj.
    assert (E : nth j (map (fun j0 => map (fun row => nth (Z.to_nat j0) row 0)
        (ModelPrep.bin_predictors ext_lt (map (map Some) x) splits)) (arange m)) [] =
      map (fun row => nth j row 0) (ModelPrep.bin_predictors ext_lt (map (map Some) x) splits)).
    { rewrite (nth_indep _ [] (map (fun row => nth (Z.to_nat 0) row 0) (ModelPrep.bin_predictors ext_lt (map (map Some) x) splits)))
        by (rewrite map_length, length_arange; lia).
      rewrite (map_nth (fun j0 => map (fun row => nth (Z.to_nat j0) row 0)
        (ModelPrep.bin_predictors ext_lt (map (map Some) x) splits))).
      apply map_ext. intros row. f_equal.
      pose proof (zget_arange 0 m (Z.of_nat j) ltac:(lia)) as Z. unfold zget in Z. rewrite Nat2Z.id in Z.
      lia. }
    rewrite E. split; [rewrite map_length, length_bin_predictors; lia |].
    intros i s r Es Er.
    pose proof (nth_error_map2 _ _ _ (bin_row ext_lt) (map (map Some) x) splits i (map Some r) s
      ltac:(now rewrite nth_error_map, Er) Es) as B.
    fold (ModelPrep.bin_predictors ext_lt (map (map Some) x) splits) in B.
    assert (Hi : (i < length (x_train a))%nat) by (rewrite <- L1; apply nth_error_Some; congruence).
    destruct (nth_error (x_train a) i) as [row |] eqn:Et; [| apply nth_error_None in Et; lia].
    destruct (SR i row Et) as (s' & mm & E1 & E2 & ND & M & LS & _).
    rewrite Es in E1. injection E1 as <-.
    assert (V : nth i (map (fun row => nth j row 0) (ModelPrep.bin_predictors ext_lt (map (map Some) x) splits)) 0 =
      nth j (bin_row ext_lt (map Some r) s) 0).
    { apply nth_error_nth. rewrite nth_error_map, B. reflexivity. }
    rewrite V. unfold bin_row.
    assert (Hr : (j < length r)%nat) by (pose proof (HR r (nth_error_In _ _ Er)) as Q; unfold zlen in Q; lia).
    rewrite (nth_indep _ 0 (wrap (minimal_unsigned_bits (zlen s)) (searchsorted_left ext_lt s (Some 0%R))))
      by (rewrite !map_length; lia).
    rewrite (map_nth (fun v => wrap (minimal_unsigned_bits (zlen s)) (searchsorted_left ext_lt s v))).
    match goal with |- context [wrap _ (searchsorted_left ext_lt s ?t)] =>
      assert (E3 : t = Some (nth j r 0%R)) by (apply (map_nth (@Some R))); rewrite E3 end.
    pose proof (searchsorted_left_range (lt := ext_lt) s (Some (nth j r 0%R))).
    rewrite wrap_small by (pose proof (minimal_unsigned_bits_fits (zlen s) ltac:(lia)); lia).
    apply searchsorted_left_bin.
  Qed.

  Let st := fst (prepare a).

  Lemma prepare_settings : i_X st = bin_columns (x_train a) splits /\ i_max_split st = max_split /\
    i_split_bits st = bits /\ zlen (i_y st) = n /\ zlen (i_p_nonterminal st) = maxdepth a - 1 /\
    i_min_points st = (match kw_min_points (initkw a) with Some m => m | None => Some 5 end) /\
    i_count_batch st = kw_count_batch (initkw a) /\ i_resid_batch st = kw_resid_batch (initkw a) /\
    i_num_trees st = ntree a /\
    (forall v, In v (i_p_nonterminal st) -> 0 <= (v : R))%R /\
    exists offset scale lamda sigest, prepare a = (st, (offset, scale, lamda, sigest, splits)).
  Proof.
    unfold st, splits, max_split, bits, prepare.
    destruct (process_noise_variance _ _ _ _ _ _ _) as [lamda sigest].
    destruct (determine_splits _ _ _) as [[sp ms] bi]. cbn [fst snd setup_mcmc i_X i_max_split i_split_bits i_y
      i_p_nonterminal i_min_points i_count_batch i_resid_batch i_num_trees].
    do 3 (split; [reflexivity |]).
    split; [unfold transform_input; now rewrite zlen_map |].
    split; [rewrite zlen_map, zlen_arange; [lia | pose proof (go_depth a OK); lia] |].
    do 4 (split; [reflexivity |]). split.
    - intros v Hv. apply in_map_iff in Hv as (dd & <- & Hdd).
      pose proof (go_base a OK). apply Rmult_le_pos; auto. left. apply Rinv_0_lt_compat. apply exp_pos.
    - repeat eexists.
  Qed.

  Lemma prepare_ok : settings_ok st.
  Proof.
    destruct prepare_settings as (EX & EM & EB & EY & EP & EMP & EC & ER & _ & P0 & _).
    destruct splits_rows as (L1 & L2 & SR).
    pose proof (go_depth a OK). pose proof (go_n a OK) as Hn. fold n in Hn. pose proof (go_p a OK) as Hp.
    destruct (bin_columns_spec (x_train a) n eq_refl (go_rows a OK)) as [BL _].
    split.
    - lia.
    - rewrite EX, BL. lia.
    - lia.
    - rewrite EM. unfold zlen in *. lia.
    - rewrite EB. unfold bits, determine_splits. clear.
      assert (G : forall v, 8 <= minimal_unsigned_bits v).
      { intros v. unfold minimal_unsigned_bits. repeat destruct (_ <? _); lia. }
      destruct (usequants a).
      + destruct (quantilized_splits_from_matrix _ _ _ _). apply G.
      + destruct (uniform_splits_from_matrix _ _). apply G.
    - intros m Hm. rewrite EM in Hm. rewrite EB. apply In_nth_error in Hm as [i Hi].
      assert (Hl : (i < length (x_train a))%nat) by (rewrite <- L2; apply nth_error_Some; congruence).
      destruct (nth_error (x_train a) i) as [row |] eqn:Et; [| apply nth_error_None in Et; lia].
      destruct (SR i row Et) as (s & m' & E1 & E2 & ND & M & LS & MB & _).
      rewrite Hi in E2. injection E2 as <-. lia.
    - destruct (go_overflow a OK) as [[NL | (k & NL & Hk)] | NO];
        [right; rewrite EMP, NL; exists 5; split; [auto | lia] | right; rewrite EMP, NL; eauto |].
      destruct (nonempty_leaves_dec) as [[NL | (k & NL & Hk)] | NNL];
        [right; rewrite EMP, NL; exists 5; split; [auto | lia] | right; rewrite EMP, NL; eauto |].
      left. intros m Hm. rewrite EM in Hm. rewrite EB. apply In_nth_error in Hm as [i Hi].
      assert (Hl : (i < length (x_train a))%nat) by (rewrite <- L2; apply nth_error_Some; congruence).
      destruct (nth_error (x_train a) i) as [row |] eqn:Et; [| apply nth_error_None in Et; lia].
      destruct (SR i row Et) as (s & m' & E1 & E2 & ND & M & LS & MB & NL & _).
      rewrite Hi in E2. injection E2 as <-. destruct NL; [contradiction | auto].
    - intros v Hv. specialize (P0 v Hv). cbn [flt f0 rops].
      destruct (Req_dec v 0) as [E | N]; [left; exact E |]. right. apply Rltb_spec. lra.
    - rewrite EC. apply (go_count_batch a OK).
    - rewrite ER. apply (go_resid_batch a OK).
  Qed.

  (** bins of the training points are within max_split *)
  Lemma train_in_range : forall x v, In x (i_X st) -> 0 <= v < zlen (i_max_split st) ->
    0 <= entry x v <= entry (i_max_split st) v.
  Proof.
    destruct prepare_settings as (EX & EM & _). rewrite EX, EM.
    destruct splits_rows as (L1 & L2 & SR).
    destruct (bin_columns_spec (x_train a) n eq_refl (go_rows a OK)) as [BL BC].
    intros x v Hx Hv. apply In_nth with (d := []) in Hx as (j & Hj & <-).
    unfold zlen in BL, Hv. destruct (BC j ltac:(lia)) as [_ B].
    destruct (nth_error (x_train a) (Z.to_nat v)) as [row |] eqn:Et; [| apply nth_error_None in Et; lia].
    destruct (SR _ row Et) as (s & m & E1 & E2 & ND & M & LS & MB & _ & IN).
    specialize (B _ s row E1 Et).
    unfold entry. rewrite (nth_error_nth _ _ 0 E2).
    apply (IN (nth j row 0%R)); auto. apply nth_In.
    pose proof (go_rows a OK row (nth_error_In _ _ Et)) as HR. unfold n, zlen in *. lia.
  Qed.

  Lemma train_width : forall x, In x (i_X st) -> zlen x = zlen (i_max_split st).
  Proof.
    destruct prepare_settings as (EX & EM & _). rewrite EX, EM.
    destruct splits_rows as (L1 & L2 & SR).
    destruct (bin_columns_spec (x_train a) n eq_refl (go_rows a OK)) as [BL BC].
    intros x Hx. apply In_nth with (d := []) in Hx as (j & Hj & <-).
    unfold zlen in BL. destruct (BC j ltac:(lia)) as [B _]. unfold zlen. lia.
  Qed.
End Prepared.

(** ** The traces *)
Section Traces.
  Context {zo : zoob} {foo : foob rops} {g : rng rops}.

  (** the trees of a state as (leaf, var, split) *)
  Definition forest (b : @bart rops) : list (list R * list Z * list Z) :=
    map (fun t => (t_leaf t, t_var t, t_split t)) (trees b).

  Lemma map_Some_inj A (l l' : list A) : map Some l = map Some l' -> l = l'.
  Proof.
    revert l'. induction l as [| a l IH]; intros [| b l'] H; try discriminate; auto.
    cbn in H. injection H as -> H. f_equal. now apply IH.
  Qed.

  Lemma traces_values (trace : list (string * list (@value rops))) field states h :
    traces trace field states -> (forall b, lookup (state_items b) field = Some (h b)) ->
    lookup trace field = Some (map h states).
  Proof.
    intros (vs & -> & E) H. f_equal. apply map_Some_inj. rewrite E, map_map. apply map_ext. apply H.
  Qed.

  Lemma trace_forests_spec trace states :
    (forall field, In field documented_main -> traces trace field states) ->
    trace_forests trace = map forest states.
  Proof.
    intros H. unfold trace_forests.
    rewrite (traces_values trace "leaf_trees" states (fun b => VMatFloat (map t_leaf (trees b))));
      [| apply H; cbn; tauto | reflexivity].
    rewrite (traces_values trace "var_trees" states (fun b => VMatInt (map t_var (trees b))));
      [| apply H; cbn; tauto | reflexivity].
    rewrite (traces_values trace "split_trees" states (fun b => VMatInt (map t_split (trees b))));
      [| apply H; cbn; tauto | reflexivity].
    rewrite !map2_map_map. apply map_ext. intros b. unfold forest_of, forest. cbn [fst snd].
    now rewrite !map2_map_map.
  Qed.

  Lemma extract_sigma_spec trace states scale :
    (forall field, In field documented_burnin -> traces trace field states) ->
    extract_sigma trace scale = map (fun b => scale * sqrt (sigma2 b : @F rops))%R states.
  Proof.
    intros H. unfold extract_sigma.
    rewrite (traces_values trace "sigma2" states (fun b => VFloat (sigma2 b)));
      [| apply H; cbn; tauto | reflexivity].
    rewrite map_map. reflexivity.
  Qed.

  Lemma chain_X b k n : X (chain b k n) = X b.
  Proof.
    induction n as [| n IH]; auto. cbn [chain]. rewrite <- IH.
    now destruct (step_fields (chain b k n) (KSplit (chain_key k n) 2 1)) as (_ & _ & _ & _ & _ & _ & _ & EX & _).
  Qed.
End Traces.

(** ** Trees on the raw predictors *)
Section Raw.
  Context {zo : zoob}.

  Lemma raw_tree (splits : list (list ext)) (bins : list Z) (x : list R) (leaf : list R) var sp d :
    (forall v, 0 <= v < zlen splits ->
       0 <= v < zlen bins /\ nondecreasing ext_lt (nth (Z.to_nat v) splits []) /\
       in_bin ext_lt (nth (Z.to_nat v) splits []) (entry bins v) (Some (nth (Z.to_nat v) x 0%R))) ->
    (forall i, decision sp i -> 0 <= entry var i < zlen splits /\
       1 <= entry sp i <= zlen (nth (Z.to_nat (entry var i)) splits [])) ->
    forall levels i, 1 <= i ->
    dt_eval (decode d leaf var sp levels i) (gather zmode bins) =
    raw_eval splits (decode d leaf var sp levels i) x.
  Proof.
    intros HB HD. induction levels as [| levels IH]; intros i Hi; [reflexivity |].
    cbn [decode]. destruct (Z.eqb_spec (entry sp i) 0) as [E | N]; [reflexivity |].
    destruct (HD i (conj Hi N)) as [Hv Hs]. cbn [dt_eval raw_eval].
    destruct (HB _ Hv) as (Hb & ND & B).
    rewrite (gather_in _ zmode 0 bins (entry var i)) by lia.
    change (zget 0 bins (entry var i)) with (entry bins (entry var i)).
    set (row := nth (Z.to_nat (entry var i)) splits []) in *.
    destruct (nth_error row (Z.to_nat (entry sp i - 1))) as [c |] eqn:Ec.
    - pose proof (in_bin_cut row (entry bins (entry var i)) _ (entry sp i) c ND B ltac:(lia) Ec) as CUT.
      match goal with |- context [nth (Z.to_nat (entry sp i - 1)) ?r ?d] =>
        assert (E3 : nth (Z.to_nat (entry sp i - 1)) r d = c) by (apply (nth_error_nth _ _ d Ec)); rewrite E3 end.
      rewrite (IH (2 * i) ltac:(lia)), (IH (2 * i + 1) ltac:(lia)).
      destruct c as [c |].
      + cbn [ext_lt] in CUT. destruct (Rlt_dec c _); destruct (Z.ltb_spec (entry bins (entry var i)) (entry sp i)); auto.
        * pose proof (proj2 CUT eq_refl). lia.
        * pose proof (proj1 CUT ltac:(lia)). discriminate.
      + cbn [ext_lt] in CUT. destruct (Z.ltb_spec (entry bins (entry var i)) (entry sp i)); auto.
        pose proof (proj1 CUT ltac:(lia)). discriminate.
    - apply nth_error_None in Ec. unfold zlen in Hs. lia.
  Qed.
End Raw.
