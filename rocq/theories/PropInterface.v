(** Inputs and outputs of [gbart] (C50, C51). *)
From Coq Require Import String ZArith List Bool Reals Lia Lra.
From Verif Require Import Base LemBase Laws ModelJaxext ModelGrove ModelStep ModelLoop ModelPrep ModelBART ModelInterface
  SpecTree SpecRun SpecLoop SpecPrep SpecBART SpecInterface ProofRun ProofPrep ProofBART PropBART.
Import ListNotations.
Open Scope Z_scope.

Lemma rsum_fold l : rsum l = fold_right Rplus 0%R l.
Proof. unfold rsum. apply fold_symmetric; intros; ring. Qed.

Lemma columns_map {A} (d : A) f n m : (1 <= n)%nat ->
  columns d (map (fun j => map (fun i => f i j) (seq 0 m)) (seq 0 n)) =
  map (fun i => map (fun j => f i j) (seq 0 n)) (seq 0 m).
Proof.
  intros Hn. unfold columns.
  assert (E : ncols (map (fun j => map (fun i => f i j) (seq 0 m)) (seq 0 n)) = Z.of_nat m).
  { destruct n; [lia |]. cbn [seq map ncols]. unfold zlen. now rewrite map_length, seq_length. }
  rewrite E. unfold arange. rewrite map_map, Nat2Z.id. apply map_ext_in. intros i Hi. apply in_seq in Hi.
  rewrite map_map. apply map_ext. intros j. rewrite Nat2Z.id. apply (nth_map_seq (fun i => f i j)). lia.
Qed.

Section Props.
  Context {lab : labels} {ex : external} {zo : zoob} {foo : foob rops} {g : rng rops}.

  Lemma process_rows x : fst (process_predictor_input x) = predictor_rows x.
  Proof. now destruct x. Qed.
  Lemma process_values y : process_response_input y = response_values y.
  Proof. now destruct y. Qed.

  Lemma same_format_spec x x' :
    check_compatible_formats (snd (process_predictor_input x)) (snd (process_predictor_input x')) = true <->
    same_format x x'.
  Proof.
    destruct x, x'; cbn [process_predictor_input snd check_compatible_formats same_format]; try now intuition.
    - apply Z.eqb_eq.
    - destruct (columns_eq _ _) as [[] |]; intuition congruence.
  Qed.

  (** C50. When the constructor fails: the numbers of points in x_train and
      y_train differ, or the format of x_test is not that of x_train. *)
  Theorem C50_failures : forall a x y x_test,
    gbart_init a x y x_test <> None <->
    ncols (predictor_rows x) = zlen (response_values y) /\
    (forall xt, x_test = Some xt -> same_format xt x).
  Proof.
    intros a x y x_test. unfold gbart_init. destruct (process_predictor_input x) as [rows fmt] eqn:Ex.
    pose proof (process_rows x) as ER. rewrite Ex in ER. cbn [fst] in ER. subst rows. rewrite process_values.
    unfold check_same_length. destruct (Z.eqb_spec (ncols (predictor_rows x)) (zlen (response_values y))) as [E | E];
      [| split; [congruence | tauto]].
    destruct (fit _) as [r log]. destruct x_test as [xt |].
    - unfold predict_input. destruct (process_predictor_input xt) as [rt fmt'] eqn:Et. cbn [o_x_train_fmt].
      pose proof (same_format_spec xt x) as SF. rewrite Ex, Et in SF. cbn [snd] in SF.
      destruct (check_compatible_formats fmt' fmt).
      + split; [| congruence]. intros _. split; auto. intros xt' [= <-]. now apply SF.
      + split; [congruence |]. intros [_ H]. specialize (H xt eq_refl). apply SF in H. congruence.
    - split; [| congruence]. intros _. split; auto. discriminate.
  Qed.
  Print Assumptions C50_failures.

  (** C50. What is passed as x_test has no effect on the fit; yhat_test is what
      [predict] returns; [predict] fails only for a wrong format. *)
  Theorem C50_test : forall a x y xt o log, gbart_init a x y (Some xt) = Some (o, log) ->
    (exists o', gbart_init a x y None = Some (o', log) /\ o_fit o' = o_fit o /\
       o_yhat_test o' = None /\ o_yhat_test_mean o' = None /\
       forall x', predict_input o' x' = predict_input o x') /\
    (exists yhat, predict_input o xt = Some yhat /\ o_yhat_test o = Some yhat) /\
    (forall x', predict_input o x' <> None <-> same_format x' x).
  Proof.
    intros a x y xt o log H. unfold gbart_init in *. destruct (process_predictor_input x) as [rows fmt] eqn:Ex.
    destruct (check_same_length _ _); [| discriminate]. destruct (fit _) as [r lg].
    destruct (predict_input _ xt) as [yhat |] eqn:EP; [| discriminate]. injection H as <- <-.
    cbn [o_fit o_yhat_test o_yhat_test_mean].
    assert (PE : forall u v x', predict_input (mkobject r (ntree a) (maxdepth a) fmt u v) x' =
      predict_input (mkobject r (ntree a) (maxdepth a) fmt None None) x') by reflexivity.
    split; [| split].
    - eexists. split; [reflexivity |]. cbn [o_fit o_yhat_test o_yhat_test_mean].
      do 3 (split; [reflexivity |]). intros x'.
      now rewrite (PE (Some yhat)).
    - exists yhat. rewrite PE. auto.
    - intros x'. rewrite PE. unfold predict_input. destruct (process_predictor_input x') as [rt fmt'] eqn:Et.
      cbn [o_x_train_fmt]. pose proof (same_format_spec x' x) as SF. rewrite Ex, Et in SF. cbn [snd] in SF.
      destruct (check_compatible_formats fmt' fmt); rewrite <- SF; split; congruence.
  Qed.
  Print Assumptions C50_test.

  Lemma average_rows f n m : 1 <= n ->
    mean_axis0 (map (fun j => map (fun i => f i j) (seq 0 m)) (seq 0 (Z.to_nat n))) =
    map (fun i => (fold_right Rplus 0 (map (fun j => f i j) (seq 0 (Z.to_nat n))) / IZR n)%R) (seq 0 m).
  Proof.
    intros Hn. unfold mean_axis0. rewrite columns_map by lia. rewrite map_map. apply map_ext. intros i.
    unfold rmean. rewrite rsum_fold. unfold zlen. rewrite map_length, seq_length, Z2Nat.id by lia. reflexivity.
  Qed.

  Lemma predict_regression {rl : rlaws g} a x_test m : args_ok a -> nonempty_leaves a ->
    length x_test = length (x_train a) -> (forall row, In row x_test -> zlen row = m) ->
    predict (fst (fit a)) x_test =
    Some (map (fun j => map (fun i => regression (fst (fit a)) (maxdepth a) j (point 0%R x_test i)) (seq 0 (Z.to_nat m)))
           (seq 0 (Z.to_nat (ndpost a)))).
  Proof.
    intros OK NL HL HR. rewrite (C28_thresholds a x_test m OK NL HL HR). f_equal.
    apply map_ext_in. intros j Hj. apply in_seq in Hj. apply map_ext. intros i. unfold regression.
    destruct (fit_spec a (go_nskip a OK) (go_ndpost a OK) (go_keepevery a OK)) as (EF & _). rewrite EF.
    now rewrite nth_map_seq by lia.
  Qed.

  (** C50. The test and train predictions are the values of the regression
      function at each saved iteration, and their means are the averages of
      these values over the iterations. *)
  Theorem C50_means : forall {rl : rlaws g} a x y xt o log m,
    args_ok (with_data a (predictor_rows x) (response_values y)) -> nonempty_leaves a ->
    length (predictor_rows xt) = length (predictor_rows x) ->
    (forall row, In row (predictor_rows xt) -> zlen row = m) ->
    gbart_init a x y (Some xt) = Some (o, log) ->
    let f := regression (o_fit o) (maxdepth a) in
    let mean := average_regression (o_fit o) (maxdepth a) (ndpost a) in
    let points_train := map (point 0%R (predictor_rows x)) (seq 0 (length (response_values y))) in
    let points_test := map (point 0%R (predictor_rows xt)) (seq 0 (Z.to_nat m)) in
    yhat_train (o_fit o) = map (fun j => map (f j) points_train) (seq 0 (Z.to_nat (ndpost a))) /\
    o_yhat_test o = Some (map (fun j => map (f j) points_test) (seq 0 (Z.to_nat (ndpost a)))) /\
    (1 <= ndpost a ->
     yhat_train_mean (o_fit o) = map mean points_train /\
     o_yhat_test_mean o = Some (map mean points_test)).
  Proof.
    intros rl a x y xt o log m OK NL HL HR H f mean. unfold mean, f. clear f mean.
    set (a' := with_data a (predictor_rows x) (response_values y)) in *.
    assert (E : o_fit o = fst (fit a') /\ exists yhat, predict (fst (fit a')) (predictor_rows xt) = Some yhat /\
      o_yhat_test o = Some yhat /\ o_yhat_test_mean o = Some (mean_axis0 yhat)).
    { unfold gbart_init in H. destruct (process_predictor_input x) as [rows fmt] eqn:Ex.
      pose proof (process_rows x) as ER. rewrite Ex in ER. cbn [fst] in ER. subst rows. rewrite process_values in H.
      fold a' in H. destruct (check_same_length _ _); [| discriminate]. destruct (fit a') as [r lg] eqn:EF.
      unfold predict_input in H. destruct (process_predictor_input xt) as [rt fmt'] eqn:Et.
      pose proof (process_rows xt) as ERt. rewrite Et in ERt. cbn [fst] in ERt. subst rt. cbn [o_x_train_fmt] in H.
      destruct (check_compatible_formats _ _); [| discriminate]. injection H as <- <-.
      cbn [o_fit o_yhat_test o_yhat_test_mean fst]. split; [reflexivity |]. eexists. split; [| split; reflexivity].
      unfold predict. replace (zlen (predictor_rows xt) =? g_num_covar r) with true; [reflexivity |].
      symmetry. apply Z.eqb_eq.
      destruct (fit_spec a' (go_nskip a' OK) (go_ndpost a' OK) (go_keepevery a' OK)) as (_ & _ & EN & _).
      rewrite EF in EN. cbn [fst] in EN. rewrite EN. unfold zlen. now rewrite HL. }
    destruct E as (-> & yhat & EP & -> & ->).
    assert (NL' : nonempty_leaves a') by exact NL.
    rewrite (predict_regression a' _ m OK NL' HL HR) in EP. injection EP as <-.
    assert (ET : yhat_train (fst (fit a')) =
      map (fun j => map (fun i => regression (fst (fit a')) (maxdepth a) j (point 0%R (predictor_rows x) i))
        (seq 0 (length (response_values y)))) (seq 0 (Z.to_nat (ndpost a)))).
    { pose proof (C28_predict_train a' OK) as P.
      rewrite (predict_regression a' _ (zlen (y_train a')) OK NL' eq_refl (go_rows a' OK)) in P.
      injection P as <-. unfold zlen. rewrite Nat2Z.id. reflexivity. }
    split; [| split].
    - rewrite ET. apply map_ext. intros j. now rewrite map_map.
    - f_equal. apply map_ext. intros j. now rewrite map_map.
    - intros Hn. unfold yhat_train_mean. rewrite ET. cbn [a' with_data ndpost maxdepth] in *.
      split; [| f_equal]; rewrite average_rows by lia; rewrite map_map; reflexivity.
  Qed.
  Print Assumptions C50_means.

  (** C51. A DataFrame gives the same fit and log as the array with its columns
      as rows, and a Series the same as the array with its values. *)
  Theorem C51_same_fit : forall a x x' y y' o log,
    predictor_rows x = predictor_rows x' -> response_values y = response_values y' ->
    gbart_init a x y None = Some (o, log) ->
    exists o', gbart_init a x' y' None = Some (o', log) /\ o_fit o' = o_fit o /\
      forall t t', predictor_rows t = predictor_rows t' -> same_format t x -> same_format t' x' ->
        predict_input o t = predict_input o' t'.
  Proof.
    intros a x x' y y' o log ER EY H. unfold gbart_init in *.
    destruct (process_predictor_input x) as [rows fmt] eqn:Ex. destruct (process_predictor_input x') as [rows' fmt'] eqn:Ex'.
    pose proof (process_rows x) as R1. pose proof (process_rows x') as R2. rewrite Ex in R1. rewrite Ex' in R2.
    cbn [fst] in R1, R2. subst rows rows'. rewrite process_values in *. rewrite <- ER, <- EY.
    destruct (check_same_length _ _); [| discriminate]. destruct (fit _) as [r lg]. injection H as <- <-.
    eexists. split; [reflexivity |]. split; [reflexivity |]. intros t t' ET S1 S2.
    unfold predict_input. apply same_format_spec in S1, S2. rewrite Ex in S1. rewrite Ex' in S2.
    pose proof (process_rows t) as R1. pose proof (process_rows t') as R2.
    destruct (process_predictor_input t) as [u f], (process_predictor_input t') as [u' f'].
    cbn [fst snd o_x_train_fmt o_fit] in *. subst u u'. rewrite S1, S2, ET. reflexivity.
  Qed.
  Print Assumptions C51_same_fit.
End Props.

(** C51, column labels given as a list (polars): a DataFrame is accepted if and
    only if it has the same columns in the same order. *)
Theorem C51_list_columns : forall {ex : external} {zo : zoob} {foo : foob rops} {g : rng rops},
  let lab := list_labels in
  forall a columns data y o log columns' data',
  gbart_init a (Frame (columns : label_columns) data) y None = Some (o, log) ->
  (predict_input o (Frame (columns' : label_columns) data') <> None <-> columns' = columns) /\
  predict_input o (Array data') = None.
Proof.
  intros ex zo foo g lab a columns data y o log columns' data' H. unfold gbart_init in H.
  cbn [process_predictor_input] in H. destruct (check_same_length _ _); [| discriminate].
  destruct (fit _) as [r lg]. injection H as <- <-. split; [| reflexivity].
  unfold predict_input. cbn [process_predictor_input o_x_train_fmt check_compatible_formats columns_eq lab list_labels].
  destruct (list_eq_dec string_dec columns' columns) as [E | E]; split; congruence.
Qed.
Print Assumptions C51_list_columns.

(** C51 does not hold for pandas DataFrames: a test DataFrame with the same
    columns as the training one is rejected if it has at least two columns and
    does not share the very object that holds the labels. *)
Theorem C51_index_columns_refuted : forall {ex : external} {zo : zoob} {foo : foob rops} {g : rng rops},
  let lab := index_labels in
  forall a id id' names data y o log data', id <> id' -> 2 <= zlen names ->
  gbart_init a (Frame ((id, names) : label_columns) data) y None = Some (o, log) ->
  predict_input o (Frame ((id', names) : label_columns) data') = None.
Proof.
  intros ex zo foo g lab a id id' names data y o log data' NE HL H. unfold gbart_init in H.
  cbn [process_predictor_input] in H. destruct (check_same_length _ _); [| discriminate].
  destruct (fit _) as [r lg]. injection H as <- <-.
  unfold predict_input. cbn [process_predictor_input o_x_train_fmt check_compatible_formats columns_eq lab index_labels fst snd].
  destruct (Z.eqb_spec id' id); [congruence |]. unfold zlen in HL.
  destruct names as [| u [| v l]]; cbn [length] in HL; try lia. reflexivity.
Qed.
Print Assumptions C51_index_columns_refuted.

(** Sharing the labels object, or with one column, it works. *)
Theorem C51_index_columns_partial : forall {ex : external} {zo : zoob} {foo : foob rops} {g : rng rops},
  let lab := index_labels in
  forall a id id' names names' data y o log data',
  gbart_init a (Frame ((id, names) : label_columns) data) y None = Some (o, log) ->
  id' = id \/ (zlen names = 1 /\ names' = names) ->
  predict_input o (Frame ((id', names') : label_columns) data') <> None.
Proof.
  intros ex zo foo g lab a id id' names names' data y o log data' H HC. unfold gbart_init in H.
  cbn [process_predictor_input] in H. destruct (check_same_length _ _); [| discriminate].
  destruct (fit _) as [r lg]. injection H as <- <-.
  unfold predict_input. cbn [process_predictor_input o_x_train_fmt check_compatible_formats columns_eq lab index_labels fst snd].
  destruct (Z.eqb_spec id' id); [congruence |]. destruct HC as [HC | [HL ->]]; [congruence |]. unfold zlen in HL.
  destruct names as [| u [| v l]]; cbn [length] in HL; try lia. rewrite String.eqb_refl. congruence.
Qed.
Print Assumptions C51_index_columns_partial.

(** Data of the example of PropBART.v as DataFrame and Series, with test data *)
Section Example.
  Context {zo : zoob} {foo : foob rops} {g : rng rops}.

  Example ex_frame : exists o log,
    gbart_init (ex := ex_external) (ex_args true) (@Frame list_labels ["u"; "v"]%string (x_train (ex_args true)))
      (Series "y" (y_train (ex_args true)))
      (Some (@Frame list_labels ["u"; "v"]%string [[1 / 2; 7]; [3; 4]]%R)) = Some (o, log) /\
    args_ok (with_data (ex_args true) (x_train (ex_args true)) (y_train (ex_args true))) /\ 1 <= ndpost (ex_args true).
  Proof.
    match goal with |- exists o log, ?i = _ /\ _ => assert (H : i <> None) end.
    { apply C50_failures. split; [reflexivity |]. intros xt [= <-]. cbn [same_format columns_eq list_labels].
      destruct (list_eq_dec string_dec _ _); [reflexivity | congruence]. }
    match goal with |- exists o log, ?i = _ /\ _ => destruct i as [[o log] |]; [| congruence] end.
    exists o, log. split; [reflexivity |]. split; [exact (ex_args_ok true) | cbn; lia].
  Qed.

  Example ex_wrong_order : forall y,
    gbart_init (ex := ex_external) (ex_args true) (@Frame list_labels ["u"; "v"]%string (x_train (ex_args true))) y
      (Some (@Frame list_labels ["v"; "u"]%string [[1 / 2; 7]; [3; 4]]%R)) = None.
  Proof.
    intros y. match goal with |- ?i = None => destruct i eqn:E; [| reflexivity] end. exfalso.
    match type of E with ?i = _ => assert (H : i <> None) by congruence end.
    apply C50_failures in H as [_ H]. specialize (H _ eq_refl). cbn [same_format columns_eq list_labels] in H.
    destruct (list_eq_dec string_dec _ _); congruence.
  Qed.
End Example.
