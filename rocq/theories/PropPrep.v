(** Preparation of the predictors (C24, C25, C26, C27). *)
From Coq Require Import ZArith List Bool Lia Reals Lra Sorted.
From Verif Require Import Base LemBase Laws ModelJaxext ModelPrep SpecPrep ProofSampling ProofUnique ProofPrep.
Import ListNotations.
Open Scope Z_scope.

Lemma jnp_sort_perm A (lt : A -> A -> bool) l : Permutation.Permutation l (jnp_sort lt l).
Proof.
  induction l as [| a l IH]; [constructor |]. cbn [jnp_sort fold_right].
  apply Permutation.perm_trans with (a :: jnp_sort lt l); [now constructor |].
  unfold jnp_sort. generalize (fold_right (insert_sorted lt) [] l). clear.
  induction l as [| b l IH]; cbn [insert_sorted]; [constructor; constructor |].
  destruct (lt b a); [| apply Permutation.Permutation_refl].
  eapply Permutation.perm_trans; [apply Permutation.perm_swap | now constructor].
Qed.

(** ** C24: unique *)

Theorem C24_unique : forall A (lt eqb : A -> A -> bool), total_order lt eqb ->
  forall (x : list A) (size : Z) (fill : A), zlen x <= size ->
  exists u, distinct_values lt x u /\
    fst (unique lt eqb x size fill) = u ++ repeat fill (Z.to_nat size - length u) /\
    snd (unique lt eqb x size fill) = zlen u.
Proof.
  intros A lt eqb TO x size fill H.
  destruct (unique_all x size fill H) as (u & D & -> & _). exists u. auto.
Qed.
Print Assumptions C24_unique.

(** The output has always the requested size, and without enough room what
    comes out is only the distinct values of the [size] smallest elements. *)
Theorem C24_unique_small : forall A (lt eqb : A -> A -> bool), total_order lt eqb ->
  forall (x : list A) (size : Z) (fill : A), 0 <= size ->
  zlen (fst (unique lt eqb x size fill)) = size /\
  exists u v, distinct_values lt v u /\ 
    fst (unique lt eqb x size fill) = u ++ repeat fill (Z.to_nat size - length u) /\
    snd (unique lt eqb x size fill) = zlen u /\
    (exists w, Permutation.Permutation x (v ++ w) /\ zlen v = Z.min size (zlen x) /\
       forall a b, In a v -> In b w -> lt b a = false).
Proof.
  intros A lt eqb TO x size fill H.
  destruct (unique_spec x size fill H) as (u & D & -> & Hu). cbn [fst snd].
  split; [rewrite zlen_app; unfold zlen in *; rewrite repeat_length; lia |].
  exists u, (firstn (Z.to_nat size) (jnp_sort lt x)). split; auto. split; auto. split; auto.
  exists (skipn (Z.to_nat size) (jnp_sort lt x)). rewrite firstn_skipn. split; [| split].
  - apply jnp_sort_perm.
  - unfold zlen in *. rewrite firstn_length, jnp_sort_length. lia.
  - pose proof (sort_nondecreasing x) as ND. revert ND. generalize (jnp_sort lt x) (Z.to_nat size).
    intros l. induction l as [| c l IH]; intros n ND a b Ha Hb.
    + rewrite firstn_nil in Ha. easy.
    + inversion ND as [| ? ? ND' Fc]; subst. rewrite Forall_forall in Fc.
      destruct n as [| n]; [easy |]. cbn [firstn skipn] in *. destruct Ha as [<- | Ha].
      * apply Fc. rewrite <- (firstn_skipn n l). apply in_or_app. now right.
      * eapply IH; eauto.
Qed.
Print Assumptions C24_unique_small.

(** The docstring ("the unique values in x, sorted, and right-padded") is false
    when [size] is smaller than [x.size], even if [size] is the number of
    distinct values. *)
Theorem C24_any_size_refuted :
  ~ forall (x : list Z) (size fill : Z) u, distinct_values Z.ltb x u -> zlen u <= size ->
    fst (unique Z.ltb Z.eqb x size fill) = u ++ repeat fill (Z.to_nat size - length u).
Proof.
  intros H. specialize (H [1; 1; 2] 2 9 [1; 2]). assert (E : [1; 9] = [1; 2]); [| discriminate].
  apply H; [| cbv; discriminate]. split.
  - repeat constructor.
  - intros v. cbn. tauto.
Qed.
Print Assumptions C24_any_size_refuted.

Example C24_example : unique Z.ltb Z.eqb [5; 3; 5; -2; 3] 6 100 = ([-2; 3; 5; 100; 100; 100], 3).
Proof. reflexivity. Qed.

(** ** C25: quantilized splits *)

(** Row by row: each predictor gets its quantile cutpoints. *)
Definition rows_have_cutpoints {A} (lt : A -> A -> bool) (even : Z -> Z -> Z -> Prop) (huge : A) (max_bins : Z)
    (X : list (list A)) (result : list (list A) * list Z) : Prop :=
  length (fst result) = length X /\ length (snd result) = length X /\
  forall i x, nth_error X i = Some x ->
  exists splits used, nth_error (fst result) i = Some splits /\ nth_error (snd result) i = Some used /\
    quantile_cutpoints lt even huge max_bins x splits used.

Lemma rows_have_cutpoints_row A (lt : A -> A -> bool) even huge row n X max_bins :
  (forall x, In x X -> let r := row x (Z.min max_bins n - 1) in
     quantile_cutpoints lt even huge max_bins x (fst r) (snd r)) ->
  rows_have_cutpoints lt even huge max_bins X (quantilized_splits_from_matrix row n X max_bins).
Proof.
  intros H. unfold rows_have_cutpoints, quantilized_splits_from_matrix. cbn [fst snd].
  rewrite !map_length. split; auto. split; auto. intros i x E.
  eexists _, _. rewrite !nth_error_map, E. cbn. split; [reflexivity |]. split; [reflexivity |].
  apply H. eapply nth_error_In; eauto.
Qed.

Lemma representable_iff t v : representable (it_signed t) (it_bits t) v <-> int_min t <= v <= int_max t.
Proof. unfold representable, int_min, int_max. destruct (it_signed t); lia. Qed.
Lemma largest_max t m : 1 <= it_bits t -> largest (it_signed t) (it_bits t) m -> m = int_max t.
Proof.
  intros Ht [R H]. apply representable_iff in R. specialize (H (int_max t)).
  assert (int_min t <= int_max t).
  { unfold int_min, int_max. assert (0 < 2 ^ (it_bits t - 1)) by (apply Z.pow_pos_nonneg; lia).
    assert (0 < 2 ^ it_bits t) by (apply Z.pow_pos_nonneg; lia). destruct (it_signed t); lia. }
  rewrite representable_iff in H. lia.
Qed.

(** Integer predictors, of any integer type: no overflow. The positions of the
    quantiles are computed in exact arithmetic. *)
Theorem C25_integers : forall (x64 : bool) (t : itype) (mode : oob Z) (n : Z) (X : list (list Z)) (max_bins m : Z),
  1 <= it_bits t -> (it_signed t = true -> it_bits t <= 32) -> 1 <= n < 2 ^ 64 -> 1 <= max_bins ->
  (forall x, In x X -> zlen x = n) ->
  (forall x v, In x X -> In v x -> representable (it_signed t) (it_bits t) v) -> largest (it_signed t) (it_bits t) m ->
  rows_have_cutpoints Z.ltb evenly m max_bins X
    (quantilized_splits_from_matrix (quantilized_row_int x64 t mode exact_lin) n X max_bins).
Proof.
  intros x64 t mode n X mb m Ht H64 Hn Hmb HX HV Hm. rewrite (largest_max t m Ht Hm). apply rows_have_cutpoints_row. intros x Hx.
  rewrite <- (HX x Hx) in *. apply int_cutpoints; auto.
  - intros v Hv. apply representable_iff. eapply HV; eauto.
  - intros L HL. apply exact_good; lia.
Qed.
Print Assumptions C25_integers.

(** With the positions of the quantiles computed inexactly, and at most 512 bins *)
Theorem C25_integers_inexact : forall (x64 : bool) (t : itype) (mode : oob Z) lin (n : Z) (X : list (list Z)) (max_bins m : Z),
  near_quantiles lin n -> 1 <= it_bits t -> (it_signed t = true -> it_bits t <= 32) -> 1 <= n < 2 ^ 64 -> 1 <= max_bins <= 512 ->
  (forall x, In x X -> zlen x = n) ->
  (forall x v, In x X -> In v x -> representable (it_signed t) (it_bits t) v) -> largest (it_signed t) (it_bits t) m ->
  rows_have_cutpoints Z.ltb nearly_evenly m max_bins X
    (quantilized_splits_from_matrix (quantilized_row_int x64 t mode lin) n X max_bins).
Proof.
  intros x64 t mode lin n X mb m HN Ht H64 Hn Hmb HX HV Hm. rewrite (largest_max t m Ht Hm). apply rows_have_cutpoints_row. intros x Hx.
  rewrite <- (HX x Hx) in *. apply int_cutpoints; auto; try lia.
  - intros v Hv. apply representable_iff. eapply HV; eauto.
  - intros L HL. apply near_good with (n := zlen x); auto; lia.
Qed.
Print Assumptions C25_integers_inexact.

#[export] Instance ext_order : total_order ext_lt ext_eqb.
Proof.
  split.
  - intros [a |]; cbn; auto. destruct (Rlt_dec a a); auto. lra.
  - intros [a |] [b |] [c |]; cbn; try discriminate; auto.
    destruct (Rlt_dec a b), (Rlt_dec b c), (Rlt_dec a c); try discriminate; auto; lra.
  - intros [a |] [b |]; cbn; auto.
    destruct (Rlt_dec a b); auto. destruct (Rlt_dec b a); auto.
    right. left. f_equal. lra.
  - intros [a |] [b |]; cbn; split; try discriminate; auto.
    + destruct (Req_EM_T a b); [congruence | discriminate].
    + intros E. injection E as ->. destruct (Req_EM_T b b); auto.
Qed.

Lemma ext_half_separates (a b : ext) : ext_lt a b = true -> ext_lt b None = true ->
  separates ext_lt (ext_half_sum b a) a b.
Proof.
  destruct a as [a |], b as [b |]; cbn; try discriminate. intros Hab _. unfold separates. cbn.
  destruct (Rlt_dec a b); [| discriminate].
  destruct (Rlt_dec ((b + a) / 2) a); [lra |]. destruct (Rlt_dec ((b + a) / 2) b); [auto | lra].
Qed.

(** Finite float predictors, with exact arithmetic. *)
Theorem C25_floats : forall (mode : oob ext) (n : Z) (X : list (list ext)) (max_bins : Z),
  1 <= n < 2 ^ 64 -> 1 <= max_bins ->
  (forall x, In x X -> zlen x = n) ->
  (forall x v, In x X -> In v x -> v <> None) ->
  rows_have_cutpoints ext_lt evenly None max_bins X
    (quantilized_splits_from_matrix (quantilized_row_float ext_lt ext_eqb mode None exact_lin ext_half_sum)
       n X max_bins).
Proof.
  intros mode n X mb Hn Hmb HX HV. apply rows_have_cutpoints_row. intros x Hx.
  rewrite <- (HX x Hx) in *. apply (float_cutpoints _ _ _ _ _ (fun _ => True)); auto.
  - intros a b _ _. apply ext_half_separates.
  - intros v Hv. specialize (HV x v Hx Hv). now destruct v.
  - intros L HL. apply exact_good; lia.
Qed.
Print Assumptions C25_floats.

(** C25. If 64 bits types are enabled, predictors of type int64 are averaged in
    double precision: large integers are not separated, and the filler is not
    the largest integer. *)
Theorem C25_int64_refuted : ~ forall (x64 : bool) (t : itype) (mode : oob Z) (n : Z) (X : list (list Z)) (max_bins m : Z),
  1 <= it_bits t -> 1 <= n < 2 ^ 64 -> 1 <= max_bins ->
  (forall x, In x X -> zlen x = n) ->
  (forall x v, In x X -> In v x -> representable (it_signed t) (it_bits t) v) -> largest (it_signed t) (it_bits t) m ->
  rows_have_cutpoints Z.ltb evenly m max_bins X
    (quantilized_splits_from_matrix (quantilized_row_int x64 t mode exact_lin) n X max_bins).
Proof.
  intros H. specialize (H true (mkitype true 64) (mkoob true 0) 2 [[2 ^ 53 + 1; 2 ^ 53 + 2]] 2 (2 ^ 63 - 1)).
  destruct H as (_ & _ & H).
  - cbn; lia.
  - lia.
  - lia.
  - intros x [<- | []]. reflexivity.
  - intros x v [<- | []] [<- | [<- | []]]; cbn; lia.
  - unfold largest, representable. cbn. split; [lia | intros; lia].
  - destruct (H 0%nat [2 ^ 53 + 1; 2 ^ 53 + 2] eq_refl) as (s & u & E1 & E2 & Q).
    vm_compute in E1, E2. injection E1 as <-. injection E2 as <-.
    pose proof (qc_separates _ _ _ _ _ _ _ Q (2 ^ 53) ltac:(now left)) as (a & b & (Ha & _) & Sa & _).
    apply Z.ltb_ge in Sa. destruct Ha as [<- | [<- | []]]; lia.
Qed.
Print Assumptions C25_int64_refuted.

(** The integers that double precision holds exactly are separated, but the
    unused values are 2^63 because the largest integer is rounded. *)
Theorem C25_int64 : forall (mode : oob Z) (n : Z) (X : list (list Z)) (max_bins : Z),
  1 <= n < 2 ^ 64 -> 1 <= max_bins ->
  (forall x, In x X -> zlen x = n) ->
  (forall x v, In x X -> In v x -> Z.abs v <= 2 ^ 53) ->
  rows_have_cutpoints Z.ltb evenly (2 ^ 63) max_bins X
    (quantilized_splits_from_matrix (quantilized_row_int true (mkitype true 64) mode exact_lin) n X max_bins).
Proof.
  intros mode n X mb Hn Hmb HX HV. apply rows_have_cutpoints_row. intros x Hx.
  rewrite <- (HX x Hx) in *. apply int64_cutpoints; auto.
  - intros v Hv. eapply HV; eauto.
  - intros L HL. apply exact_good; lia.
Qed.
Print Assumptions C25_int64.
Example int64_example :
  quantilized_splits_from_matrix (quantilized_row_int true (mkitype true 64) (mkoob true 0) exact_lin) 4
    [[2 ^ 53 - 1; - 2 ^ 53; 2 ^ 53; - 2 ^ 53]] 4 = ([[-1; 2 ^ 53 - 1; 2 ^ 63]], [2]).
Proof. vm_compute. reflexivity. Qed.

(** With no datapoints the number of cutpoints is not meaningful (-1 in an
    unsigned type). *)
Theorem C25_no_data_refuted : 
  ~ forall (t : itype) (mode : oob Z) (n : Z) (X : list (list Z)) (max_bins : Z) used,
    1 <= it_bits t -> 0 <= n < 2 ^ 64 -> 1 <= max_bins ->
    (forall x, In x X -> zlen x = n) ->
    In used (snd (quantilized_splits_from_matrix (quantilized_row_int false t mode exact_lin) n X max_bins)) ->
    used <= max_bins - 1.
Proof.
  intros H. specialize (H (mkitype true 32) (mkoob true 0) 0 [[]] 10 255).
  assert (255 <= 10 - 1); [| lia]. apply H.
  - cbn; lia.
  - lia.
  - lia.
  - intros x [<- | []]. reflexivity.
  - now left.
Qed.
Print Assumptions C25_no_data_refuted.

Example C25_example_few :
  quantilized_splits_from_matrix (quantilized_row_int false (mkitype true 8) (mkoob true 0) exact_lin) 5
    [[127; -128; 3; 3; 127]; [7; 7; 7; 7; 7]] 4 = ([[-63; 65; 127]; [127; 127; 127]], [2; 0]).
Proof. reflexivity. Qed.
Example C25_example_many :
  quantilized_splits_from_matrix (quantilized_row_int false (mkitype false 16) (mkoob true 0) exact_lin) 10
    [[0; 10; 20; 30; 40; 50; 60; 70; 80; 90]] 4 = ([[25; 45; 65]], [3]).
Proof. reflexivity. Qed.
Example C25_example_unsigned :
  quantilized_splits_from_matrix (quantilized_row_int false (mkitype false 16) (mkoob true 0) exact_lin) 4
    [[50000; 0; 0; 60000]] 4 = ([[25000; 55000; 65535]], [2]).
Proof. reflexivity. Qed.

(** ** C26: uniform splits *)

(** [low] and [high] are the extremes of [x]. *)
Definition extremes (x : list R) (low high : R) : Prop :=
  In low x /\ In high x /\ forall v, In v x -> (low <= v <= high)%R.

Lemma rmin_extreme x : x <> [] -> In (rmin x) x /\ forall v, In v x -> (rmin x <= v)%R.
Proof.
  destruct x as [| a x]; [easy |]. intros _. unfold rmin. cbn [hd].
  assert (G : forall d l, (In (fold_right Rmin d l) (d :: l)) /\ forall v, In v (d :: l) -> (fold_right Rmin d l <= v)%R).
  { intros d l. induction l as [| b l [IH1 IH2]].
    - split; [now left |]. intros v [<- | []]. cbn. lra.
    - cbn [fold_right]. split.
      + assert (D : Rmin b (fold_right Rmin d l) = b \/ Rmin b (fold_right Rmin d l) = fold_right Rmin d l)
          by (unfold Rmin; destruct (Rle_dec _ _); auto).
        destruct D as [-> | ->]; [right; now left |].
        destruct IH1; [left; auto | right; right; auto].
      + intros v [<- | [<- | Hv]].
        * eapply Rle_trans; [apply Rmin_r |]. apply IH2. now left.
        * apply Rmin_l.
        * eapply Rle_trans; [apply Rmin_r |]. apply IH2. now right. }
  destruct (G a (a :: x)) as [G1 G2]. split.
  - destruct G1 as [<- | G1]; [now left | auto].
  - intros v Hv. apply G2. now right.
Qed.
Lemma rmax_extreme x : x <> [] -> In (rmax x) x /\ forall v, In v x -> (v <= rmax x)%R.
Proof.
  destruct x as [| a x]; [easy |]. intros _. unfold rmax. cbn [hd].
  assert (G : forall d l, (In (fold_right Rmax d l) (d :: l)) /\ forall v, In v (d :: l) -> (v <= fold_right Rmax d l)%R).
  { intros d l. induction l as [| b l [IH1 IH2]].
    - split; [now left |]. intros v [<- | []]. cbn. lra.
    - cbn [fold_right]. split.
      + assert (D : Rmax b (fold_right Rmax d l) = b \/ Rmax b (fold_right Rmax d l) = fold_right Rmax d l)
          by (unfold Rmax; destruct (Rle_dec _ _); auto).
        destruct D as [-> | ->]; [right; now left |].
        destruct IH1; [left; auto | right; right; auto].
      + intros v [<- | [<- | Hv]].
        * eapply Rle_trans; [| apply Rmax_r]. apply IH2. now left.
        * apply Rmax_l.
        * eapply Rle_trans; [| apply Rmax_r]. apply IH2. now right. }
  destruct (G a (a :: x)) as [G1 G2]. split.
  - destruct G1 as [<- | G1]; [now left | auto].
  - intros v Hv. apply G2. now right.
Qed.

Lemma extremes_unique x l h l' h' : extremes x l h -> extremes x l' h' -> l = l' /\ h = h'.
Proof.
  intros (A1 & A2 & A3) (B1 & B2 & B3).
  pose proof (A3 _ B1). pose proof (A3 _ B2). pose proof (B3 _ A1). pose proof (B3 _ A2). split; lra.
Qed.

(** Each predictor gets num_bins - 1 evenly spaced cutpoints between the
    minimum and the maximum (excluded), whatever the other predictors are. *)
Theorem C26_uniform : forall (X : list (list R)) (num_bins : Z) i x low high,
  1 <= num_bins -> nth_error X i = Some x -> extremes x low high ->
  exists splits, nth_error (fst (uniform_splits_from_matrix X num_bins)) i = Some splits /\
    nth_error (snd (uniform_splits_from_matrix X num_bins)) i = Some (num_bins - 1) /\
    zlen splits = num_bins - 1 /\
    forall k c, 1 <= k -> nth_error splits (Z.to_nat (k - 1)) = Some c ->
      (c = low + IZR k * ((high - low) / IZR num_bins))%R.
Proof.
  intros X nb i x low high Hnb E EX. unfold uniform_splits_from_matrix. cbn [fst snd].
  eexists. rewrite !nth_error_map, E. cbn [option_map uniform_row fst snd].
  split; [reflexivity |]. split; [reflexivity |]. split.
  - rewrite zlen_map, zlen_arange; lia.
  - intros k c Hk Q. unfold arange in Q. rewrite !nth_error_map in Q.
    destruct (nth_error (seq 0 (Z.to_nat (nb - 1))) (Z.to_nat (k - 1))) as [j |] eqn:S; [| discriminate].
    assert (Hj : j = Z.to_nat (k - 1)).
    { assert (Hl : (Z.to_nat (k - 1) < Z.to_nat (nb - 1))%nat).
      { rewrite <- (seq_length (Z.to_nat (nb - 1)) 0). apply nth_error_Some. congruence. }
      pose proof (nth_error_nth _ _ 0%nat S) as S'. rewrite seq_nth in S' by auto. auto. }
    subst j. cbn [option_map] in Q. injection Q as <-. rewrite Z2Nat.id by lia.
    replace (k - 1 + 1) with k by lia.
    assert (NE : x <> []) by (destruct EX as [H _]; now destruct x).
    destruct (rmin_extreme x NE) as [M1 M2]. destruct (rmax_extreme x NE) as [M3 M4].
    destruct (extremes_unique x low high (rmin x) (rmax x)) as [-> ->]; auto.
    { split; auto. }
    assert (0 < IZR nb)%R by (apply IZR_lt; lia). field. lra.
Qed.
Print Assumptions C26_uniform.

(** Consequences: the cutpoints are strictly inside the range and increasing,
    so that the minimum falls in the first bin and the maximum in the last;
    a constant predictor has all cutpoints equal to it and one bin in use. *)
Theorem C26_inside : forall (X : list (list R)) (num_bins : Z) i x low high splits,
  1 <= num_bins -> nth_error X i = Some x -> extremes x low high ->
  nth_error (fst (uniform_splits_from_matrix X num_bins)) i = Some splits ->
  ((low < high)%R ->
     (forall c, In c splits -> low < c < high)%R /\
     (forall j k c c', (j < k)%nat -> nth_error splits j = Some c -> nth_error splits k = Some c' -> (c < c')%R)) /\
  (low = high -> forall c, In c splits -> c = low).
Proof.
  intros X nb i x low high splits Hnb E EX ES.
  destruct (C26_uniform X nb i x low high Hnb E EX) as (sp & ES' & _ & SL & SP).
  rewrite ES in ES'. injection ES' as <-.
  assert (Hd : (0 < IZR nb)%R) by (apply IZR_lt; lia).
  assert (SP' : forall j c, nth_error splits j = Some c ->
    (c = low + IZR (Z.of_nat j + 1) * ((high - low) / IZR nb))%R /\ 1 <= Z.of_nat j + 1 < nb).
  { intros j c Hj. split.
    - apply SP; [lia |]. replace (Z.to_nat (Z.of_nat j + 1 - 1)) with j by lia. auto.
    - assert (j < length splits)%nat by (apply nth_error_Some; congruence). unfold zlen in SL. lia. }
  split.
  - intros Hlh. assert (Hs : (0 < (high - low) / IZR nb)%R) by (apply Rdiv_lt_0_compat; lra).
    split.
    + intros c Hc. apply In_nth_error in Hc as [j Hj]. destruct (SP' j c Hj) as [-> [B1 B2]].
      apply IZR_le in B1. apply IZR_lt in B2. split.
      * assert (0 < IZR (Z.of_nat j + 1) * ((high - low) / IZR nb))%R by (apply Rmult_lt_0_compat; lra). lra.
      * assert (IZR (Z.of_nat j + 1) * ((high - low) / IZR nb) < IZR nb * ((high - low) / IZR nb))%R
          by (apply Rmult_lt_compat_r; lra).
        assert (IZR nb * ((high - low) / IZR nb) = high - low)%R by (field; lra). lra.
    + intros j k c c' Hjk Hj Hk. destruct (SP' j c Hj) as [-> _]. destruct (SP' k c' Hk) as [-> _].
      apply Rplus_lt_compat_l. apply Rmult_lt_compat_r; auto. apply IZR_lt. lia.
  - intros -> c Hc. apply In_nth_error in Hc as [j Hj]. destruct (SP' j c Hj) as [-> _].
    unfold Rdiv. rewrite Rminus_diag_eq by reflexivity. lra.
Qed.
Print Assumptions C26_inside.

(** The minimum is in the first bin, the maximum in the last. *)
Theorem C26_bins : forall (X : list (list R)) (num_bins : Z) i x low high splits,
  1 <= num_bins -> nth_error X i = Some x -> extremes x low high -> (low < high)%R ->
  nth_error (fst (uniform_splits_from_matrix X num_bins)) i = Some splits ->
  in_bin Rltb splits 0 low /\ in_bin Rltb splits (num_bins - 1) high.
Proof.
  intros X nb i x low high splits Hnb E EX Hlh ES.
  destruct (C26_uniform X nb i x low high Hnb E EX) as (sp & ES' & _ & SL & _).
  rewrite ES in ES'. injection ES' as <-.
  destruct (C26_inside X nb i x low high splits Hnb E EX ES) as [H _]. destruct (H Hlh) as [IN _].
  unfold zlen in SL. split.
  - split; [lia |]. split; [intros; lia |]. intros c Hc. apply nth_error_In in Hc.
    apply Rltb_false. specialize (IN c Hc). lra.
  - split; [lia |]. split.
    + intros c _ Hc. apply nth_error_In in Hc. apply Rltb_spec. specialize (IN c Hc). lra.
    + intros c Hc. assert (Z.to_nat (nb - 1) < length splits)%nat by (apply nth_error_Some; congruence). lia.
Qed.
Print Assumptions C26_bins.

Example C26_example : exists splits,
  fst (uniform_splits_from_matrix [[3; 1; 2; 9]; [0; 0; 0; 0]]%R 4) = splits /\
  splits = [[3; 5; 7]; [0; 0; 0]]%R /\ extremes [3; 1; 2; 9]%R 1%R 9%R.
Proof.
  eexists. split; [reflexivity |]. split.
  - assert (M1 : rmin [3; 1; 2; 9]%R = 1%R).
    { unfold rmin. cbn. repeat (unfold Rmin; destruct (Rle_dec _ _)); lra. }
    assert (M2 : rmax [3; 1; 2; 9]%R = 9%R).
    { unfold rmax. cbn. repeat (unfold Rmax; destruct (Rle_dec _ _)); lra. }
    assert (M3 : rmin [0; 0; 0; 0]%R = 0%R).
    { unfold rmin. cbn. repeat (unfold Rmin; destruct (Rle_dec _ _)); lra. }
    assert (M4 : rmax [0; 0; 0; 0]%R = 0%R).
    { unfold rmax. cbn. repeat (unfold Rmax; destruct (Rle_dec _ _)); lra. }
    unfold uniform_splits_from_matrix. cbn [map fst uniform_row].
    rewrite M1, M2, M3, M4. change (arange (4 - 1)) with [0; 1; 2]. cbn [map].
    change (0 + 1) with 1. change (1 + 1) with 2. change (2 + 1) with 3.
    repeat match goal with |- _ :: _ = _ :: _ => f_equal end; lra.
  - split; [cbn; auto |]. split; [cbn; auto |]. intros v Hv. cbn in Hv.
    destruct Hv as [<- | [<- | [<- | [<- | []]]]]; lra.
Qed.

(** ** C27: binning *)

(** bin_predictors maps each value to its bin, which is unique. *)
Theorem C27_bin_predictors : forall A (lt eqb : A -> A -> bool), total_order lt eqb ->
  forall (X splits : list (list A)) i x s, length X = length splits ->
  nth_error X i = Some x -> nth_error splits i = Some s ->
  nondecreasing lt s -> zlen s < 2 ^ 64 ->
  exists b, nth_error (bin_predictors lt X splits) i = Some b /\ length b = length x /\
    forall j v, nth_error x j = Some v ->
    exists k, nth_error b j = Some k /\ in_bin lt s k v /\ forall k', in_bin lt s k' v -> k' = k.
Proof.
  intros A lt eqb TO X splits i x s HL EX ES ND HS.
  assert (G : forall (X splits : list (list A)) i, nth_error X i = Some x -> nth_error splits i = Some s ->
    nth_error (bin_predictors lt X splits) i = Some (bin_row lt x s)).
  { clear. induction X as [| a X IH]; intros [| b sp] [| i] H1 H2; try discriminate; cbn in *.
    - injection H1 as ->. now injection H2 as ->.
    - apply IH; auto. }
  exists (bin_row lt x s). split; [now apply G |]. unfold bin_row. rewrite map_length. split; auto.
  intros j v Hj. rewrite nth_error_map, Hj. cbn [option_map].
  pose proof (searchsorted_left_range (lt := lt) s v) as R.
  rewrite wrap_small by (pose proof (minimal_unsigned_bits_fits (zlen s) ltac:(lia)); lia).
  eexists. split; [reflexivity |]. split; [apply searchsorted_left_bin |].
  intros k' Hk'. eapply in_bin_unique; eauto. apply searchsorted_left_bin.
Qed.
Print Assumptions C27_bin_predictors.

(** Padding at the end of the row is ignored: the bin is the one of the used
    cutpoints. *)
Theorem C27_padding : forall A (lt eqb : A -> A -> bool), total_order lt eqb ->
  forall (used : list A) (huge : A) (m : nat) (k : Z) (v : A), 
  lt huge v = false -> in_bin lt (used ++ repeat huge m) k v ->
  nondecreasing lt (used ++ repeat huge m) ->
  in_bin lt used k v /\ 0 <= k <= zlen used.
Proof.
  intros A lt eqb TO used huge m k v Hv (R & B1 & B2) ND.
  assert (K : k <= zlen used).
  { destruct (Z.le_gt_cases k (zlen used)) as [H | H]; auto. exfalso.
    rewrite app_length, repeat_length in R. unfold zlen in H.
    assert (E : nth_error (used ++ repeat huge m) (Z.to_nat (k - 1)) = Some huge).
    { rewrite nth_error_app2 by lia.
      destruct (nth_error (repeat huge m) (Z.to_nat (k - 1) - length used)) as [h |] eqn:Q.
      - f_equal. eapply repeat_spec. eapply nth_error_In; eauto.
      - apply nth_error_None in Q. rewrite repeat_length in Q. lia. }
    specialize (B1 huge ltac:(lia) E). congruence. }
  split; [| lia]. split; [unfold zlen in K; lia |]. split.
  - intros c Hk E. apply B1; auto. rewrite nth_error_app1; auto. apply nth_error_Some. congruence.
  - intros c E. apply B2; auto. rewrite nth_error_app1; auto. apply nth_error_Some. congruence.
Qed.
Print Assumptions C27_padding.

(** Binning preserves the order. *)
Theorem C27_monotone : forall A (lt eqb : A -> A -> bool), total_order lt eqb ->
  forall (s : list A) v w k l, nondecreasing lt s -> lt w v = false ->
  in_bin lt s k v -> in_bin lt s l w -> k <= l.
Proof.
  intros A lt eqb TO s v w k l ND H B B'.
  destruct (Z.eq_dec k 0) as [-> | N]; [apply B' |].
  destruct (nth_error s (Z.to_nat (k - 1))) as [c |] eqn:Q.
  - apply (in_bin_cut s l w k c ND B'); [destruct B; lia | auto |].
    eapply lt_nlt_trans; [| exact H]. apply (in_bin_cut s k v k c ND B); [destruct B; lia | auto | lia].
  - apply nth_error_None in Q. destruct B. lia.
Qed.
Print Assumptions C27_monotone.

(** With the cutpoints of quantilized_splits_from_matrix: the row of cutpoints
    is sorted, so that the previous theorems apply, every datapoint gets a bin
    between 0 and max_split, and if there are not more distinct values than
    max_bins, the bin is the rank of the value. *)
Theorem C27_quantile_bins : forall A (lt eqb : A -> A -> bool), total_order lt eqb ->
  forall even (huge : A) max_bins x splits used, (forall v, In v x -> lt huge v = false) ->
  quantile_cutpoints lt even huge max_bins x splits used -> x <> [] -> 1 <= max_bins ->
  nondecreasing lt splits /\
  (forall v k, In v x -> in_bin lt splits k v -> 0 <= k <= used) /\
  (forall u, distinct_values lt x u -> Z.of_nat (length u) <= max_bins ->
     forall v k, In v x -> in_bin lt splits k v -> nth_error u (Z.to_nat k) = Some v).
Proof.
  intros A lt eqb TO even huge mb x splits used HH Q NE Hmb.
  destruct (unique_all x (zlen x) huge ltac:(lia)) as (u & DV & _ & Hu).
  assert (U1 : (1 <= length u)%nat).
  { destruct x as [| a x]; [easy |]. assert (In a u) by (apply DV; now left). destruct u; [easy | cbn; lia]. }
  pose proof (qc_used _ _ _ _ _ _ _ Q u DV) as EU.
  pose proof (qc_length _ _ _ _ _ _ _ Q) as EL. unfold zlen in Hu.
  assert (SP : splits = firstn (Z.to_nat used) splits ++ repeat huge (length splits - Z.to_nat used)).
  { rewrite <- (firstn_skipn (Z.to_nat used) splits) at 1. f_equal.
    rewrite <- skipn_length.
    assert (G : forall l : list A, (forall c, In c l -> c = huge) -> l = repeat huge (length l)).
    { induction l as [| c l IH]; intros H; auto. cbn. rewrite (H c) by now left. f_equal. apply IH.
      intros; apply H; now right. }
    apply G. apply (qc_unused _ _ _ _ _ _ _ Q). }
  assert (CH : forall c, In c (firstn (Z.to_nat used) splits) -> lt huge c = false).
  { intros c Hc. destruct (qc_separates _ _ _ _ _ _ _ Q c Hc) as (a & b & CO & S1 & S2).
    eapply nlt_trans; [apply not_lt; right; exact S2 | apply HH; apply CO]. }
  assert (ND : nondecreasing lt splits).
  { rewrite SP. pose proof (qc_increasing _ _ _ _ _ _ _ Q) as I. revert I CH.
    generalize (firstn (Z.to_nat used) splits). intros l. generalize (length splits - Z.to_nat used)%nat as c. clear -TO.
    intros c. induction l as [| a l IH]; intros I CH.
    - cbn [app]. clear -TO. induction c; constructor; auto. apply Forall_forall. intros z Hz.
      apply repeat_spec in Hz. subst. apply o_irrefl.
    - inversion I as [| ? ? I' Fa]; subst. constructor.
      + apply IH; auto. intros; apply CH; now right.
      + apply Forall_app. split.
        * eapply Forall_impl; [| exact Fa]. intros; now apply lt_asym.
        * apply Forall_forall. intros z Hz. apply repeat_spec in Hz. subst. apply CH. now left. }
  assert (LU : length (firstn (Z.to_nat used) splits) = Z.to_nat used).
  { rewrite firstn_length. lia. }
  assert (PAD : forall v k, In v x -> in_bin lt splits k v ->
     in_bin lt (firstn (Z.to_nat used) splits) k v /\ 0 <= k <= used).
  { intros v k Hv B. rewrite SP in B. 
    destruct (C27_padding A lt eqb TO _ huge _ k v (HH v Hv) B) as [P1 P2].
    - now rewrite <- SP.
    - split; auto. unfold zlen in P2. rewrite LU in P2. lia. }
  split; [exact ND |]. split; [intros v k Hv B; now apply (PAD v k) |].
  intros u' DV' HU v k Hv B.
  assert (u' = u) by (eapply distinct_values_unique; eauto). subst u'.
  destruct (PAD v k Hv B) as [B' K].
  set (cs := firstn (Z.to_nat used) splits) in *.
  assert (used = Z.of_nat (length u) - 1) by lia.
  assert (LC : Z.of_nat (length cs) = Z.of_nat (length u) - 1) by lia.
  (* the number of cutpoints below the i-th distinct value is i *)
  assert (SEP : forall i j a c, nth_error u i = Some a -> nth_error cs j = Some c ->
    (lt c a = true <-> (j < i)%nat)).
  { (* each gap between consecutive distinct values contains exactly one cutpoint *)
    assert (GAP : forall i a b, nth_error u i = Some a -> nth_error u (S i) = Some b ->
      exists j c, nth_error cs j = Some c /\ separates lt c a b).
    { intros i a b Ha Hb. destruct (qc_all _ _ _ _ _ _ _ Q u DV HU a b) as (c & Hc & S).
      - apply DV. eapply nth_error_In; eauto.
      - apply DV. eapply nth_error_In; eauto.
      - pose proof (increasing_nth a u (proj1 DV) (Z.of_nat i) (Z.of_nat (S i)) ltac:(lia)) as I.
        unfold zget, zlen in I. rewrite !Nat2Z.id in I.
        rewrite (nth_error_nth _ _ a Ha), (nth_error_nth _ _ a Hb) in I. apply I.
        apply inj_lt. apply nth_error_Some. congruence.
      - apply In_nth_error in Hc as [j Hj]. exists j, c. auto. }
    assert (CI : forall j j' c c', nth_error cs j = Some c -> nth_error cs j' = Some c' ->
      (lt c c' = true <-> (j < j')%nat)).
    { intros j j' c c' Hj Hj'. pose proof (nth_lt_iff c cs (qc_increasing _ _ _ _ _ _ _ Q) (Z.of_nat j) (Z.of_nat j')) as I.
      unfold zget, zlen in I. rewrite !Nat2Z.id in I.
      rewrite (nth_error_nth _ _ c Hj), (nth_error_nth _ _ c Hj') in I.
      assert (j < length cs)%nat by (apply nth_error_Some; congruence).
      assert (j' < length cs)%nat by (apply nth_error_Some; congruence).
      rewrite I by lia. lia. }
    (* the cutpoint in gap i has index i *)
    assert (IDX : forall i a b, nth_error u i = Some a -> nth_error u (S i) = Some b ->
      exists c, nth_error cs i = Some c /\ separates lt c a b).
    { assert (LB : forall i a b, nth_error u i = Some a -> nth_error u (S i) = Some b ->
        forall j c, nth_error cs j = Some c -> separates lt c a b -> (i <= j)%nat).
      { induction i as [| i IH]; intros a b Ha Hb j c Hj Sc; [lia |].
        destruct (nth_error u i) as [a' |] eqn:Ha'.
        - destruct (GAP i a' a Ha' Ha) as (j' & c' & Hj' & Sc').
          pose proof (IH a' a eq_refl Ha j' c' Hj' Sc').
          assert (lt c' c = true) by (eapply lt_nlt_trans; [apply Sc' | apply Sc]).
          apply (CI j' j c' c Hj' Hj) in H1. lia.
        - apply nth_error_None in Ha'. assert (S i < length u)%nat by (apply nth_error_Some; congruence). lia. }
      assert (UB : forall g i a b, (S i + g = length u - 1)%nat -> nth_error u i = Some a -> nth_error u (S i) = Some b ->
        forall j c, nth_error cs j = Some c -> separates lt c a b -> (j <= i)%nat).
      { induction g as [| g IH]; intros i a b Hg Ha Hb j c Hj Sc.
        - assert (j < length cs)%nat by (apply nth_error_Some; congruence). lia.
        - destruct (nth_error u (S (S i))) as [b' |] eqn:Hb'.
          + destruct (GAP (S i) b b' Hb Hb') as (j' & c' & Hj' & Sc').
            pose proof (IH (S i) b b' ltac:(lia) Hb Hb' j' c' Hj' Sc').
            assert (lt c c' = true) by (eapply lt_nlt_trans; [apply Sc | apply Sc']).
            apply (CI j j' c c' Hj Hj') in H1. lia.
          + apply nth_error_None in Hb'. lia. }
      intros i a b Ha Hb. destruct (GAP i a b Ha Hb) as (j & c & Hj & Sc).
      assert (S i < length u)%nat by (apply nth_error_Some; congruence).
      pose proof (LB i a b Ha Hb j c Hj Sc).
      pose proof (UB (length u - 1 - S i)%nat i a b ltac:(lia) Ha Hb j c Hj Sc).
      assert (j = i) by lia. subst j. exists c. auto. }
    assert (UI : forall i i' a a', nth_error u i = Some a -> nth_error u i' = Some a' ->
      (lt a a' = true <-> (i < i')%nat)).
    { intros j j' c c' Hj Hj'. pose proof (nth_lt_iff c u (proj1 DV) (Z.of_nat j) (Z.of_nat j')) as I.
      unfold zget, zlen in I. rewrite !Nat2Z.id in I.
      rewrite (nth_error_nth _ _ c Hj), (nth_error_nth _ _ c Hj') in I.
      assert (j < length u)%nat by (apply nth_error_Some; congruence).
      assert (j' < length u)%nat by (apply nth_error_Some; congruence).
      rewrite I by lia. lia. }
    intros i j a c Ha Hc.
    assert (Hj : (j < length cs)%nat) by (apply nth_error_Some; congruence).
    destruct (nth_error u j) as [a1 |] eqn:E1; [| apply nth_error_None in E1; lia].
    destruct (nth_error u (S j)) as [b1 |] eqn:E2; [| apply nth_error_None in E2; lia].
    destruct (IDX j a1 b1 E1 E2) as (c' & Hc' & S1 & S2). rewrite Hc in Hc'. injection Hc' as <-.
    split.
    - intros Hlt. destruct (Nat.lt_ge_cases j i) as [L | L]; auto. exfalso.
      assert (lt a1 a = false).
      { destruct (lt a1 a) eqn:X; auto. apply (UI j i a1 a E1 Ha) in X. lia. }
      pose proof (lt_nlt_trans _ _ _ Hlt H0). congruence.
    - intros L. destruct (Nat.eq_dec i (S j)) as [-> | N].
      + rewrite Ha in E2. injection E2 as <-. exact S2.
      + eapply o_trans; [exact S2 |]. apply (UI (S j) i b1 a E2 Ha). lia. }
  apply DV in Hv. apply In_nth_error in Hv as [i Hi].
  assert (Hil : (i < length u)%nat) by (apply nth_error_Some; congruence).
  assert (E : k = Z.of_nat i); [| subst k; now rewrite Nat2Z.id].
  destruct B' as (R & B1 & B2). apply Z.le_antisymm.
  - destruct (Z.eq_dec k 0); [lia |].
    destruct (nth_error cs (Z.to_nat (k - 1))) as [c |] eqn:E.
    + specialize (B1 c ltac:(lia) eq_refl). apply (SEP i _ v c Hi E) in B1. lia.
    + apply nth_error_None in E. lia.
  - destruct (Z.le_gt_cases (Z.of_nat i) k) as [L | L]; auto. exfalso.
    destruct (nth_error cs (Z.to_nat k)) as [c |] eqn:E.
    + specialize (B2 c eq_refl). assert (lt c v = true) by (apply (SEP i _ v c Hi E); lia). congruence.
    + apply nth_error_None in E. lia.
Qed.
Print Assumptions C27_quantile_bins.

Example C27_example : bin_predictors Z.ltb [[127; -128; 3; 3; 66; 65]] [[-63; 65; 127]] = [[2; 0; 1; 1; 2; 1]].
Proof. reflexivity. Qed.
(** the hypotheses of [C25_integers] and [C27_quantile_bins] hold for this
    predictor with repeated values and type bounds *)
Example C27_example_hyps : exists splits used,
  quantile_cutpoints Z.ltb evenly 127 4 [127; -128; 3; 3; 127] splits used /\
  (forall v, In v [127; -128; 3; 3; 127] -> (127 <? v) = false).
Proof.
  destruct (C25_integers false (mkitype true 8) (mkoob true 0) 5 [[127; -128; 3; 3; 127]] 4 127) as (_ & _ & H).
  - cbn; lia.
  - cbn; lia.
  - lia.
  - lia.
  - intros x [<- | []]. reflexivity.
  - intros x v [<- | []]. cbn [In]. intros [<- | [<- | [<- | [<- | [<- | []]]]]]; cbn; lia.
  - unfold largest, representable. cbn. split; [lia | intros; lia].
  - destruct (H 0%nat [127; -128; 3; 3; 127] eq_refl) as (s & u & _ & _ & Q).
    exists s, u. split; [exact Q |]. cbn [In].
    intros v [<- | [<- | [<- | [<- | [<- | []]]]]]; reflexivity.
Qed.
