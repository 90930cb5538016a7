(** The results of the functions that use [autobatch] do not depend on the
    batching (C29): prediction, quantile grid, binning. *)
From Coq Require Import String ZArith List Bool Lia Reals.
From Verif Require Import Base LemBase ModelJaxext ModelGrove ModelLoop ModelPrep ModelAutobatch ModelBatched
  SpecAutobatch ProofAutobatch PropAutobatch ProofPrep.
Import ListNotations.
Open Scope Z_scope.

(** ** Lists *)
Definition part {B} (a m : nat) (l : list B) : list B := firstn m (skipn a l).

Lemma part_map B C (f : B -> C) a m l : part a m (map f l) = map f (part a m l).
Proof. unfold part. now rewrite skipn_map, firstn_map. Qed.

Lemma part_map2 B C D (f : B -> C -> D) : forall a m l l',
  part a m (map2 f l l') = map2 f (part a m l) (part a m l').
Proof.
  unfold part. induction a as [| a IH]; intros m l l'.
  - cbn [skipn]. revert l l'. induction m as [| m IHm]; intros [| x l] [| x' l']; try reflexivity.
    cbn [map2 firstn]. f_equal. apply IHm.
  - destruct l as [| x l], l' as [| x' l']; cbn [skipn map2]; rewrite ?firstn_nil; try reflexivity.
    + destruct (firstn m (skipn a l)); reflexivity.
    + apply IH.
Qed.

Lemma part_length B a m (l : list B) : (a + m <= length l)%nat -> length (part a m l) = m.
Proof. intros H. unfold part. rewrite firstn_length, skipn_length. lia. Qed.

Lemma In_part B a m (l : list B) x : In x (part a m l) -> In x l.
Proof.
  unfold part. intros H. rewrite <- (firstn_skipn a l). apply in_or_app. right.
  rewrite <- (firstn_skipn m (skipn a l)). apply in_or_app. now left.
Qed.

Lemma nth_part B (d : B) a m l i : (i < m)%nat -> nth i (part a m l) d = nth (a + i) l d.
Proof. intros H. unfold part. rewrite nth_firstn_lt by exact H. apply nth_skipn_add. Qed.

Lemma nth_concat B (d : B) m : forall (l : list (list B)) i j, (forall r, In r l -> length r = m) ->
  (j < m)%nat -> (i < length l)%nat -> nth (i * m + j) (concat l) d = nth j (nth i l []) d.
Proof.
  induction l as [| r l IH]; intros i j Hl Hj Hi; [cbn in Hi; lia |].
  assert (Hr : length r = m) by (apply Hl; now left). cbn [concat].
  destruct i as [| i]; cbn [nth Nat.mul Nat.add].
  - apply app_nth1. lia.
  - rewrite app_nth2 by lia. replace (m + i * m + j - length r)%nat with (i * m + j)%nat by lia.
    apply IH; auto; [intros; apply Hl; now right | cbn in Hi; lia].
Qed.

Lemma length_concat B m (l : list (list B)) : (forall r, In r l -> length r = m) -> length (concat l) = (length l * m)%nat.
Proof.
  induction l as [| r l IH]; intros H; [reflexivity |]. cbn [concat length]. rewrite app_length, IH.
  - rewrite (H r) by now left. lia.
  - intros; apply H; now right.
Qed.

Lemma map_nth_seq B (d : B) l : map (fun i => nth i l d) (seq 0 (length l)) = l.
Proof.
  induction l as [| x l IH]; [reflexivity |]. cbn [length seq map nth]. f_equal.
  rewrite <- seq_shift, map_map. exact IH.
Qed.

(** ** Packed arrays *)
Section Pack.
  Context {A B : Type} (inj : B -> elem A) (proj : elem A -> B) (PI : forall b, proj (inj b) = b).
  Notation dE := (@dE A).

  Lemma wf_pack2 t m (l : list (list B)) : (forall r, In r l -> length r = m) -> wf (pack2 inj t m l).
  Proof.
    intros H. unfold wf, pack2. cbn [dat shp]. rewrite (length_concat _ m).
    - rewrite map_length. cbn. lia.
    - intros r Hr. apply in_map_iff in Hr as (r' & <- & Hr'). rewrite map_length. auto.
  Qed.

  Lemma wf_pack1 t (l : list B) : wf (pack1 inj t l).
  Proof. unfold wf, pack1. cbn [dat shp]. rewrite map_length. cbn. lia. Qed.

  Lemma get_pack2 t m (l : list (list B)) (db : B) i j : (forall r, In r l -> length r = m) ->
    (i < length l)%nat -> (j < m)%nat -> get dE (pack2 inj t m l) [i; j] = inj (nth j (nth i l []) db).
  Proof.
    intros H Hi Hj. unfold get, pack2. cbn [shp dat ravel]. cbn [prod fold_right]. rewrite Nat.mul_1_r, Nat.mul_1_r, Nat.add_0_r.
    rewrite (nth_concat _ _ m).
    - change (@nil (elem A)) with (map inj []). rewrite map_nth.
      rewrite (nth_indep _ dE (inj db)) by (rewrite map_length, (H (nth i l [])); auto using nth_In).
      now rewrite map_nth.
    - intros r Hr. apply in_map_iff in Hr as (r' & <- & Hr'). rewrite map_length. auto.
    - exact Hj.
    - now rewrite map_length.
  Qed.

  Lemma get_pack1 t (l : list B) (db : B) i : (i < length l)%nat -> get dE (pack1 inj t l) [i] = inj (nth i l db).
  Proof.
    intros Hi. unfold get, pack1. cbn [shp dat ravel prod fold_right]. rewrite Nat.mul_1_r, Nat.add_0_r.
    rewrite (nth_indep _ dE (inj db)) by now rewrite map_length. now rewrite map_nth.
  Qed.

  Lemma rows_pack2 t m (l : list (list B)) : (forall r, In r l -> length r = m) -> rows proj (pack2 inj t m l) = l.
  Proof using PI.
    intros H. unfold rows. change (nth 0 (shp (pack2 inj t m l)) 0%nat) with (length l).
    change (nth 1 (shp (pack2 inj t m l)) 0%nat) with m.
    rewrite <- (map_nth_seq _ [] l) at 2. apply map_ext_in. intros i Hi. apply in_seq in Hi.
    assert (L : length (nth i l []) = m) by (apply H, nth_In; lia).
    destruct m as [| m']; [symmetry; now apply length_zero_iff_nil |].
    destruct (nth i l []) as [| b0 r0] eqn:E; [discriminate |]. rewrite <- E in *.
    rewrite <- (map_nth_seq _ b0 (nth i l [])) at 1. rewrite L. apply map_ext_in. intros j Hj. apply in_seq in Hj.
    rewrite (get_pack2 _ _ _ b0) by (auto; lia). apply PI.
  Qed.

  Lemma elems_pack1 t (l : list B) : elems proj (pack1 inj t l) = l.
  Proof using PI.
    unfold elems. change (nth 0 (shp (pack1 inj t l)) 0%nat) with (length l).
    destruct l as [| b0 l0] eqn:E; [reflexivity |]. rewrite <- E.
    rewrite <- (map_nth_seq _ b0 l) at 2. apply map_ext_in. intros i Hi. apply in_seq in Hi.
    rewrite (get_pack1 _ _ b0) by lia. apply PI.
  Qed.

  Lemma slice_pack2 t m (l : list (list B)) a k : (forall r, In r l -> length r = m) -> (a + k <= length l)%nat ->
    slice dE 0 a k (pack2 inj t m l) = pack2 inj t m (part a k l).
  Proof.
    intros H Ha. apply (arr_ext dE).
    - apply wf_slice.
    - apply wf_pack2. intros r Hr. apply H. eapply In_part, Hr.
    - unfold slice, pack2. cbn. now rewrite part_length.
    - reflexivity.
    - intros idx Hi. unfold slice in Hi |- *. cbn [tabulate shp] in Hi. rewrite get_tabulate by exact Hi.
      cbn in Hi. inversion Hi as [| i ? r s Hik Hr]; subst. inversion Hr as [| j ? r' s' Hjm Hr']; subst.
      inversion Hr'; subst. cbn [nth insert remove firstn skipn app].
      assert (E : exists b : B, True).
      { destruct (nth (a + i) l []) as [| b r] eqn:E; [| now exists b].
        assert (length (nth (a + i) l []) = m) by (apply H, nth_In; lia). rewrite E in H0. cbn in H0. lia. }
      destruct E as [db _].
      rewrite (get_pack2 _ _ _ db) by (auto; lia). rewrite (get_pack2 _ _ _ db).
      + now rewrite nth_part.
      + intros r Hr0. apply H. eapply In_part, Hr0.
      + now rewrite part_length.
      + exact Hjm.
  Qed.

  Lemma slice_pack1 t (l : list B) a k : (a + k <= length l)%nat -> slice dE 0 a k (pack1 inj t l) = pack1 inj t (part a k l).
  Proof.
    intros Ha. apply (arr_ext dE).
    - apply wf_slice.
    - apply wf_pack1.
    - unfold slice, pack1. cbn. now rewrite part_length.
    - reflexivity.
    - intros idx Hi. unfold slice in Hi |- *. cbn [tabulate shp] in Hi. rewrite get_tabulate by exact Hi.
      cbn in Hi. inversion Hi as [| i ? r s Hik Hr]; subst. inversion Hr; subst.
      cbn [nth insert remove firstn skipn app].
      destruct l as [| db l0] eqn:E; [cbn in Ha; lia |]. rewrite <- E in *.
      rewrite (get_pack1 _ _ db) by lia. rewrite (get_pack1 _ _ db) by now rewrite part_length.
      now rewrite nth_part.
  Qed.
End Pack.

Lemma sized_pack2 A B (inj : B -> elem A) t m l n : length l = n -> sized n (pack2 inj t m l) (Some 0%nat).
Proof. intros <- k [= <-]. reflexivity. Qed.
Lemma sized_pack1 A B (inj : B -> elem A) t l n : length l = n -> sized n (pack1 inj t l) (Some 0%nat).
Proof. intros <- k [= <-]. reflexivity. Qed.
Lemma sized_none A n (x : arr A) : sized n x None.
Proof. intros k H. discriminate H. Qed.

Lemma uint_for_size m : 0 <= itemsize (uint_for m).
Proof.
  unfold uint_for, minimal_unsigned_bits. cbn [itemsize].
  repeat match goal with |- context [if ?c then _ else _] => destruct c end; cbn; discriminate.
Qed.

(** ** Prediction *)
Section Trace.
  Context {fo : fops} {zo : zoob} {foo : foob fo}.

  (** All the predictions are those without batches, whatever the number of
      trees, of points, of iterations: no call fails. The trees of an iteration
      have equal sizes. *)
  Theorem C29_evaluate_trace : forall root (tX tvar tsplit : dtype) (p nleaf nvar : nat) trace (X : list (list Z)),
    0 <= itemsize tX -> 0 <= itemsize tvar -> 0 <= itemsize tsplit ->
    (forall x, In x X -> length x = p) ->
    (forall state leaf var split, In state trace -> In (leaf, var, split) state ->
       length leaf = nleaf /\ length var = nvar /\ length split = nvar) ->
    evaluate_trace_batched root tX tvar tsplit p nleaf nvar trace X = map Some (evaluate_trace trace X).
  Proof.
    intros root tX tv ts p nl nv trace X IX IV IS HX HT. unfold evaluate_trace_batched, evaluate_trace.
    rewrite map_map. apply map_ext_in. intros state Hs.
    set (L := map (fun t => fst (fst t)) state). set (V := map (fun t => snd (fst t)) state). set (S := map snd state).
    assert (HL : forall r, In r L -> length r = nl).
    { intros r Hr. apply in_map_iff in Hr as ([[l v] s] & <- & Hr). now apply (HT state l v s). }
    assert (HV : forall r, In r V -> length r = nv).
    { intros r Hr. apply in_map_iff in Hr as ([[l v] s] & <- & Hr). now apply (HT state l v s). }
    assert (HS : forall r, In r S -> length r = nv).
    { intros r Hr. apply in_map_iff in Hr as ([[l v] s] & <- & Hr). now apply (HT state l v s). }
    assert (LV : length L = length V) by (unfold L, V; now rewrite !map_length).
    assert (LS : length L = length S) by (unfold L, S; now rewrite !map_length).
    (* the function on packed arguments *)
    assert (FE : forall L V S, (forall r, In r L -> length r = nl) -> (forall r, In r V -> length r = nv) ->
      (forall r, In r S -> length r = nv) ->
      forall args, args = [pack2 inr tX p X; pack2 inl float32 nl L; pack2 inr tv nv V; pack2 inr ts nv S] ->
      evaluate_trees args =
      [pack2 inl float32 (length X) (evaluate_forest_nosum X (map2 (fun lv s => (lv, s)) (map2 pair L V) S))]).
    { clear -HX. intros L V S HL HV HS args ->. unfold evaluate_trees.
      rewrite (rows_pack2 inl (ael f0) (fun b => eq_refl)) by exact HL.
      rewrite (rows_pack2 inr zel (fun b => eq_refl) tv nv V) by exact HV.
      rewrite (rows_pack2 inr zel (fun b => eq_refl) ts nv S) by exact HS.
      rewrite (rows_pack2 inr zel (fun b => eq_refl) tX p X) by exact HX. reflexivity. }
    assert (PF : forall a m st, part a m (evaluate_forest_nosum X st) = evaluate_forest_nosum X (part a m st)).
    { intros. unfold evaluate_forest_nosum, traverse_forest. now rewrite part_map2, !part_map. }
    assert (LF : forall st, length (evaluate_forest_nosum X st) = length st).
    { intros. unfold evaluate_forest_nosum, traverse_forest. rewrite length_map2, !map_length. lia. }
    assert (RF : forall st r, In r (evaluate_forest_nosum X st) -> length r = length X).
    { intros st r Hr. unfold evaluate_forest_nosum, traverse_forest in Hr. apply In_map2 in Hr as (t & idx & _ & Hi & ->).
      rewrite map_length. apply in_map_iff in Hi as (t' & <- & _). now rewrite map_length. }
    set (st := map2 (fun lv s => (lv, s)) (map2 pair L V) S).
    assert (ES : st = state).
    { unfold st, L, V, S. clear. induction state as [| [[l v] s] state IH]; [reflexivity |]. cbn. now rewrite IH. }
    assert (Lst : length st = length L).
    { unfold st. rewrite !length_map2. lia. }
    match goal with |- context [batched_func _ _ _ _ ?i ?o ?args] =>
      destruct (C29_autobatch dE root evaluate_trees (2 ^ 29) i o args [None; Some 0%nat; Some 0%nat; Some 0%nat]
                  [Some 0%nat] (length L)) as (nb & w & E) end.
    - lia.
    - split; reflexivity.
    - rewrite (FE L V S HL HV HS _ eq_refl). split; [reflexivity |]. intros a [<- | []]. reflexivity.
    - constructor; rewrite ?(FE L V S HL HV HS _ eq_refl).
      + repeat constructor; now apply wf_pack2.
      + repeat constructor. apply wf_pack2. apply RF.
      + intros x [<- | [<- | [<- | [<- | [<- | []]]]]]; cbn; lia || assumption.
      + repeat constructor; [apply sized_none | ..]; apply sized_pack2; congruence.
      + repeat constructor. apply sized_pack2. rewrite LF. fold st. lia.
      + exists 0%nat. right. now left.
      + intros [Q | []]. discriminate Q.
    - intros a m Hm Ha. rewrite (FE L V S HL HV HS _ eq_refl). unfold slices. cbn [map2].
      rewrite !slice_pack2; try assumption; try lia; try (rewrite LF; fold st; lia); [| apply RF].
      rewrite (FE (part a m L) (part a m V) (part a m S)) by (reflexivity || (intros r Hr; apply In_part in Hr; auto)).
      rewrite PF. unfold st. now rewrite !part_map2.
    - rewrite E, (FE L V S HL HV HS _ eq_refl). fold st. rewrite ES.
      now rewrite (rows_pack2 inl (ael f0) (fun b => eq_refl)) by apply RF.
  Qed.
End Trace.
Print Assumptions C29_evaluate_trace.

(** ** The quantile grid and the binning *)
Section Prep.
  Context {A : Type} (dA : A).

  Lemma batched_quantilize root t row (n : nat) (X : list (list A)) (max_bins : Z) :
    0 <= itemsize t -> (forall x, In x X -> length x = n) ->
    (forall x, In x X -> length (fst (row x (Z.min max_bins (Z.of_nat n) - 1))) =
       Z.to_nat (Z.min max_bins (Z.of_nat n) - 1)) ->
    quantilized_splits_batched dA root t row n X max_bins =
    Some (quantilized_splits_from_matrix row (Z.of_nat n) X max_bins).
  Proof.
    intros It HX HR. unfold quantilized_splits_batched, quantilized_splits_from_matrix.
    set (m := Z.min max_bins (Z.of_nat n) - 1) in *.
    assert (FE : forall X, (forall x, In x X -> length x = n) ->
      quantilize dA row m [pack2 inl t n X] =
      [pack2 inl t (Z.to_nat m) (map fst (map (fun x => row x m) X)); pack1 inr (uint_for m) (map snd (map (fun x => row x m) X))]).
    { clear. intros X HX. unfold quantilize. now rewrite (rows_pack2 inl (ael dA) (fun b => eq_refl)) by exact HX. }
    assert (RF : forall r, In r (map fst (map (fun x => row x m) X)) -> length r = Z.to_nat m).
    { intros r Hr. apply in_map_iff in Hr as (z & <- & Hz). apply in_map_iff in Hz as (x & <- & Hx). auto. }
    destruct (C29_autobatch dE root (quantilize dA row m) (2 ^ 29) (inl 0%nat) (inl 0%nat) [pack2 inl t n X]
                [Some 0%nat] [Some 0%nat; Some 0%nat] (length X)) as (nb & w & E).
    - lia.
    - split; [reflexivity |]. intros a [<- | []]. reflexivity.
    - rewrite FE by assumption. split; [reflexivity |]. intros a [<- | [<- | []]]; reflexivity.
    - constructor; try rewrite FE by assumption.
      + repeat constructor; now apply wf_pack2.
      + repeat constructor; [now apply wf_pack2 | apply wf_pack1].
      + intros x [<- | [<- | [<- | []]]]; try exact It. apply uint_for_size.
      + repeat constructor. now apply sized_pack2.
      + repeat constructor; [apply sized_pack2 | apply sized_pack1]; now rewrite !map_length.
      + exists 0%nat. now left.
      + intros [Q | [Q | []]]; discriminate Q.
    - intros a k Hk Ha. rewrite FE by assumption. unfold slices. cbn [map2].
      rewrite !slice_pack2; try assumption; try (rewrite !map_length; exact Ha).
      rewrite slice_pack1 by (rewrite !map_length; exact Ha).
      rewrite FE by (intros r Hr; apply In_part in Hr; auto). now rewrite !part_map.
    - rewrite E, FE by assumption.
      rewrite (rows_pack2 inl (ael dA) (fun b => eq_refl)) by exact RF.
      now rewrite (elems_pack1 inr zel (fun b => eq_refl)).
  Qed.

  (** The binning does not depend on the batches. *)
  Theorem C29_bin_predictors : forall root t lt (n m : nat) (X splits : list (list A)),
    0 <= itemsize t -> length X = length splits ->
    (forall x, In x X -> length x = n) -> (forall s, In s splits -> length s = m) ->
    bin_predictors_batched dA root t lt n m X splits = Some (ModelPrep.bin_predictors lt X splits).
  Proof.
    intros root t lt n m X splits It LX HX HS. unfold bin_predictors_batched.
    assert (FE : forall X splits, (forall x, In x X -> length x = n) -> (forall s, In s splits -> length s = m) ->
      bin_arrays dA lt [pack2 inl t n X; pack2 inl t m splits] =
      [pack2 inr (uint_for (Z.of_nat m)) n (ModelPrep.bin_predictors lt X splits)]).
    { clear. intros X S HX HS. unfold bin_arrays.
      rewrite (rows_pack2 inl (ael dA) (fun b => eq_refl) t n X) by exact HX.
      rewrite (rows_pack2 inl (ael dA) (fun b => eq_refl) t m S) by exact HS. reflexivity. }
    assert (RF : forall r, In r (ModelPrep.bin_predictors lt X splits) -> length r = n).
    { intros r Hr. apply In_map2 in Hr as (x & s & Hx & _ & ->). unfold bin_row. rewrite map_length. auto. }
    assert (LF : length (ModelPrep.bin_predictors lt X splits) = length X).
    { unfold ModelPrep.bin_predictors. rewrite length_map2. lia. }
    destruct (C29_autobatch dE root (bin_arrays dA lt) (2 ^ 29) (inl 0%nat) (inl 0%nat)
                [pack2 inl t n X; pack2 inl t m splits]
                [Some 0%nat; Some 0%nat] [Some 0%nat] (length X)) as (nb & w & E).
    - lia.
    - split; [reflexivity |]. intros a [<- | [<- | []]]; reflexivity.
    - rewrite FE by assumption. split; [reflexivity |]. intros a [<- | []]; reflexivity.
    - constructor; try rewrite FE by assumption.
      + repeat constructor; now apply wf_pack2.
      + repeat constructor; now apply wf_pack2.
      + intros x [<- | [<- | [<- | []]]]; try exact It. apply uint_for_size.
      + repeat constructor; apply sized_pack2; congruence.
      + repeat constructor. now apply sized_pack2.
      + exists 0%nat. now left.
      + intros [Q | []]; discriminate Q.
    - intros a k Hk Ha. rewrite FE by assumption. unfold slices. cbn [map2].
      rewrite !slice_pack2; try assumption; try lia.
      rewrite FE by (intros r Hr; apply In_part in Hr; auto).
      unfold ModelPrep.bin_predictors. now rewrite part_map2.
    - rewrite E, FE by assumption.
      now rewrite (rows_pack2 inr zel (fun b => eq_refl)) by exact RF.
  Qed.

  (** The number of cutpoints does not depend on the data. *)
  Lemma length_unique lt eqb (x : list A) fill : zlen (fst (unique lt eqb x (zlen x) fill)) = zlen x.
  Proof.
    unfold unique. destruct x as [| v x1] eqn:Ex; [reflexivity |]. rewrite <- Ex.
    assert (zlen x <> 0) by (subst x; rewrite zlen_cons; pose proof (zlen_nonneg _ x1); lia).
    destruct (Z.eqb_spec (zlen x) 0); [contradiction |].
    assert (Hf : zlen (full (zlen x) fill) = zlen x).
    { unfold full, zlen. rewrite repeat_length. lia. }
    destruct (jnp_sort lt x) as [| x0 xs]; [exact Hf |].
    generalize (firstn (Z.to_nat (zlen x)) (x0 :: xs)). intros l.
    assert (G : forall l i last out, zlen out = zlen x ->
      zlen (snd (fold_left (unique_loop eqb) l (i, last, out))) = zlen x).
    { clear. intros l. induction l as [| y l IH]; intros i last out Ho; [exact Ho |]. cbn [fold_left unique_loop].
      apply IH. now rewrite zlen_scatter_set. }
    specialize (G l 0 x0 _ Hf). destruct (fold_left _ _ _) as [[i last] out]. exact G.
  Qed.

  Lemma length_choose (mode : oob A) lin mids L m : 0 <= m <= zlen mids -> length (fst (choose_midpoints mode lin mids L m)) = Z.to_nat m.
  Proof.
    intros H. unfold choose_midpoints. cbn [fst]. destruct (m <? L).
    - unfold quantile_indices. rewrite !map_length. unfold arange. now rewrite map_length, seq_length.
    - rewrite firstn_length. unfold zlen in H. lia.
  Qed.

  (** The quantile grid of float predictors: any type of floats. *)
  Theorem C29_quantilized_floats : forall root t lt eqb mode huge lin half_sum (n : nat) (X : list (list A)) max_bins,
    0 <= itemsize t -> (1 <= n)%nat -> 1 <= max_bins -> (forall x, In x X -> length x = n) ->
    quantilized_splits_batched dA root t (quantilized_row_float lt eqb mode huge lin half_sum) n X max_bins =
    Some (quantilized_splits_from_matrix (quantilized_row_float lt eqb mode huge lin half_sum) (Z.of_nat n) X max_bins).
  Proof.
    intros root t lt eqb mode huge lin hs n X mb It Hn Hb HX. apply batched_quantilize; auto.
    intros x Hx. unfold quantilized_row_float. pose proof (length_unique lt eqb x huge) as U.
    destruct (unique lt eqb x (zlen x) huge) as [u al]. cbn [fst] in U.
    assert (Zx : zlen x = Z.of_nat n) by (unfold zlen; now rewrite (HX x Hx)).
    apply length_choose. rewrite zlen_map2, zlen_tl, zlen_removelast; lia.
  Qed.
End Prep.

(** The quantile grid of integer predictors *)
Theorem C29_quantilized_integers : forall root t x64 it mode lin (n : nat) (X : list (list Z)) max_bins,
  0 <= itemsize t -> (1 <= n)%nat -> 1 <= max_bins -> (forall x, In x X -> length x = n) ->
  quantilized_splits_batched 0 root t (quantilized_row_int x64 it mode lin) n X max_bins =
  Some (quantilized_splits_from_matrix (quantilized_row_int x64 it mode lin) (Z.of_nat n) X max_bins).
Proof.
  intros root t x64 it mode lin n X mb It Hn Hb HX. apply batched_quantilize; auto.
  intros x Hx. unfold quantilized_row_int. cbv zeta. pose proof (length_unique Z.ltb Z.eqb x (int_max it)) as U.
  destruct (unique Z.ltb Z.eqb x (zlen x) (int_max it)) as [u al]. cbn [fst] in U.
  assert (Zx : zlen x = Z.of_nat n) by (unfold zlen; now rewrite (HX x Hx)).
  apply length_choose. assert (1 <= zlen u) by lia. rewrite !zlen_map2, !zlen_tl, !zlen_removelast, zlen_arange by lia. lia.
Qed.
Print Assumptions C29_bin_predictors.
Print Assumptions C29_quantilized_floats.
Print Assumptions C29_quantilized_integers.

(** ** Examples *)
From Coq Require Import QArith.
From Verif Require Import Examples.
Open Scope Z_scope.

(** Two trees at each of two iterations, three points: with the limit of the
    code there is one batch. *)
Definition ex_state : list (list Q * list Z * list Z) :=
  [([0; 1; 2; 3]%Q, [0; 0], [0; 2]); ([0; 5; 7; 9]%Q, [0; 1], [0; 1])].
Example ex_evaluate_trace :
  evaluate_trace_batched (fo := qops) (zo := zclip) (foo := qclip) Z.sqrt (mkdtype "uint8" 1) (mkdtype "uint8" 1) (mkdtype "uint8" 1) 2 4 2
    [ex_state; rev ex_state] [[0; 1]; [2; 0]; [3; 3]] =
  map Some (evaluate_trace (fo := qops) (zo := zclip) (foo := qclip) [ex_state; rev ex_state] [[0; 1]; [2; 0]; [3; 3]]) /\
  evaluate_trace (fo := qops) (zo := zclip) (foo := qclip) [ex_state; rev ex_state] [[0; 1]; [2; 0]; [3; 3]] =
    [[11; 10; 12]; [11; 10; 12]]%Q.
Proof. split; vm_compute; reflexivity. Qed.

(** The same function with a limit of 60 bytes: two batches. *)
Example ex_two_batches :
  match batched_func dE Z.sqrt (evaluate_trees (fo := qops) (zo := zclip) (foo := qclip)) 60
          (inr [None; Some 0%nat; Some 0%nat; Some 0%nat]) (inl 0%nat)
          [pack2 inr (mkdtype "uint8" 1) 2 [[0; 1]; [2; 0]; [3; 3]];
           pack2 inl float32 4 (map (fun t => fst (fst t)) ex_state);
           pack2 inr (mkdtype "uint8" 1) 2 (map (fun t => snd (fst t)) ex_state);
           pack2 inr (mkdtype "uint8" 1) 2 (map snd ex_state)] with
  | Some ([values], nbatches, warning) =>
    rows (ael f0) values = [[2; 3; 3]; [9; 7; 9]]%Q /\ nbatches = 2 /\ warning = false
  | _ => False
  end.
Proof. vm_compute. auto. Qed.

Example ex_bin_predictors :
  bin_predictors_batched 0 Z.sqrt (mkdtype "int32" 4) Z.ltb 3 2 [[1; 5; 9]; [4; 4; 7]] [[3; 8]; [4; 6]] =
  Some [[0; 1; 2]; [0; 0; 2]].
Proof. reflexivity. Qed.

Example ex_quantilized :
  quantilized_splits_batched 0 Z.sqrt (mkdtype "int32" 4) (quantilized_row_int false (mkitype true 32) (mkoob true 0) exact_lin) 3
    [[1; 5; 9]; [4; 4; 7]] 5 = Some ([[3; 7]; [5; 2147483647]], [2; 1]).
Proof. vm_compute. reflexivity. Qed.
