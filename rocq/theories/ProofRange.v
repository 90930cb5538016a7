(** Lemmas on split_range, ancestor_variables, fully_used_variables,
    choose_variable and choose_split (C21, C22). *)
From Coq Require Import ZArith List Bool Lia Arith.
From Verif Require Import Base LemBase ModelJaxext ModelGrove ModelStep SpecTree
  SpecSampling SpecRange ProofTree ProofSampling.
Import ListNotations.
Open Scope Z_scope.
Ltac Zify.zify_post_hook ::= Z.div_mod_to_equations.

(** induction on nodes *)
Lemma node_ind : forall P : Z -> Prop,
  P 1 -> (forall i, 1 <= i -> P i -> P (2 * i)) ->
  (forall i, 1 <= i -> P i -> P (2 * i + 1)) -> forall i, 1 <= i -> P i.
Proof.
  intros P H1 Hl Hr i Hi. destruct i as [| p | p]; try lia.
  induction p; auto.
  - apply (Hr (Z.pos p)); [lia | apply IHp; lia].
  - apply (Hl (Z.pos p)); [lia | apply IHp; lia].
Qed.

Lemma descends_inv : forall a b i, 1 <= a -> descends a b i ->
  2 <= i /\ ((a = i / 2 /\ b = negb (i mod 2 =? 0)) \/ descends a b (i / 2)).
Proof.
  intros a b i Ha H. induction H.
  - split; [lia |]. left. split; [lia |].
    replace (2 * a mod 2) with 0 by lia. reflexivity.
  - split; [lia |]. left. split; [lia |].
    replace ((2 * a + 1) mod 2) with 1 by lia. reflexivity.
  - split; [lia |]. right. replace (2 * i / 2) with i by lia. auto.
  - split; [lia |]. right. replace ((2 * i + 1) / 2) with i by lia. auto.
Qed.

Lemma descends_left : forall a b i, 1 <= a -> 1 <= i ->
  (descends a b (2 * i) <-> (a = i /\ b = false) \/ descends a b i).
Proof.
  intros a b i Ha Hi; split.
  - intros H. apply descends_inv in H; auto. destruct H as [_ [[-> ->] | H]].
    + left. split; [lia |]. replace (2 * i mod 2) with 0 by lia. reflexivity.
    + right. replace (2 * i / 2) with i in H by lia. auto.
  - intros [[-> ->] | H]; [apply desc_left | now apply desc_down_left].
Qed.

Lemma descends_right : forall a b i, 1 <= a -> 1 <= i ->
  (descends a b (2 * i + 1) <-> (a = i /\ b = true) \/ descends a b i).
Proof.
  intros a b i Ha Hi; split.
  - intros H. apply descends_inv in H; auto. destruct H as [_ [[-> ->] | H]].
    + left. split; [lia |]. replace ((2 * i + 1) mod 2) with 1 by lia. reflexivity.
    + right. replace ((2 * i + 1) / 2) with i in H by lia. auto.
  - intros [[-> ->] | H]; [apply desc_right | now apply desc_down_right].
Qed.

Lemma descends_root : forall a b, 1 <= a -> ~ descends a b 1.
Proof. intros a b Ha H. apply descends_inv in H; auto. lia. Qed.

(** the range at a node, by recursion on the node number *)
Fixpoint bounds (var split : list Z) (v M : Z) (i : positive) : Z * Z :=
  match i with
  | xH => (0, M + 1)
  | xO q =>
    let '(l, r) := bounds var split v M q in
    (l, if entry var (Zpos q) =? v then Z.min r (entry split (Zpos q)) else r)
  | xI q =>
    let '(l, r) := bounds var split v M q in
    (if entry var (Zpos q) =? v then Z.max l (entry split (Zpos q)) else l, r)
  end.

Lemma bounds_0 : forall var split v M i,
  0 <= fst (bounds var split v M i) /\ snd (bounds var split v M i) <= M + 1.
Proof.
  induction i; simpl; try destruct (bounds var split v M i); simpl in *; try lia;
    destruct (_ =? v); lia.
Qed.

Section Range.
  Context {zo : zoob}.

  (** one iteration of the loop in terms of the parent *)
  Lemma split_range_iterate : forall var split v M n p l r,
    Zpos p < 2 ^ (Z.of_nat n + 1) -> Zpos p <= zlen split * 2 -> Zpos p <= zlen var * 2 ->
    (Zpos p < 2 * zlen split) -> Zpos p < 2 * zlen var -> 0 < zlen split -> 0 < zlen var ->
    0 <= l -> r <= M + 1 ->
    let '(l', r', _) := iterate n (split_range_loop var split v) (l, r, Zpos p) in
    l' = Z.max l (fst (bounds var split v M p)) /\
    r' = Z.min r (snd (bounds var split v M p)).
  Proof.
    intros var sp v M.
    assert (R0 : forall n l r, iterate n (split_range_loop var sp v) (l, r, 0) = (l, r, 0)).
    { induction n; intros l r; auto. cbn [iterate].
      replace (split_range_loop var sp v (l, r, 0)) with (l, r, 0); auto.
      unfold split_range_loop. change (Z.shiftr 0 1) with 0. rewrite Z.eqb_refl.
      cbn [negb]. rewrite !andb_false_r. reflexivity. }
    induction n; intros p l r Hp Hs Hv Hs2 Hv2 Hsp Hvp Hl Hr.
    - change (2 ^ (Z.of_nat 0 + 1)) with 2 in Hp. assert (p = 1%positive) by lia. subst p.
      simpl. lia.
    - replace (Z.of_nat (S n) + 1) with (Z.of_nat n + 1 + 1) in Hp by lia.
      rewrite pow2_S in Hp by lia.
      cbn [iterate]. unfold split_range_loop at 2.
      rewrite land_1, shiftr_1.
      destruct p as [q | q |].
      + replace (Z.pos q~1 mod 2) with 1 by lia. replace (Z.pos q~1 / 2) with (Z.pos q) by lia.
        change (negb (1 =? 0)) with true. change (negb (Z.pos q =? 0)) with true.
        cbn [negb]. rewrite !andb_true_r, andb_false_r.
        rewrite !(gather_in _ _ 0) by lia.
        change (zget 0 sp (Z.pos q)) with (entry sp (Z.pos q)).
        change (zget 0 var (Z.pos q)) with (entry var (Z.pos q)).
        specialize (IHn q (if entry var (Z.pos q) =? v then Z.max l (entry sp (Z.pos q)) else l) r).
        destruct (iterate n _ _) as [[l' r'] idx'].
        cbn [bounds]. destruct (bounds var sp v M q) as [bl br] eqn:Eb. cbn [fst snd] in *.
        destruct IHn as [-> ->]; try lia.
        * destruct (_ =? v); lia.
        * split; [destruct (_ =? v); lia | lia].
      + replace (Z.pos q~0 mod 2) with 0 by lia. replace (Z.pos q~0 / 2) with (Z.pos q) by lia.
        change (negb (0 =? 0)) with false. change (negb (Z.pos q =? 0)) with true.
        cbn [negb]. rewrite !andb_true_r, andb_false_r.
        rewrite !(gather_in _ _ 0) by lia.
        change (zget 0 sp (Z.pos q)) with (entry sp (Z.pos q)).
        change (zget 0 var (Z.pos q)) with (entry var (Z.pos q)).
        specialize (IHn q l (if entry var (Z.pos q) =? v then Z.min r (entry sp (Z.pos q)) else r)).
        destruct (iterate n _ _) as [[l' r'] idx'].
        cbn [bounds]. destruct (bounds var sp v M q) as [bl br] eqn:Eb. cbn [fst snd] in *.
        destruct IHn as [-> ->]; try lia.
        * destruct (_ =? v); lia.
        * split; [lia | destruct (_ =? v); lia].
      + change (1 mod 2) with 1. change (1 / 2) with 0.
        rewrite Z.eqb_refl. cbn [negb]. rewrite !andb_false_r. cbn [andb].
        rewrite R0. simpl. lia.
  Qed.

  (** [split_range] computes [bounds]. *)
  Lemma split_range_bounds : forall bits d var split max_split i v,
    1 <= d -> zlen var = heap_size d -> zlen split = heap_size d ->
    1 <= i < heap_size d -> 0 <= v ->
    split_range bits var split max_split i v =
    (wrap bits (fst (bounds var split v (entry max_split v) (Z.to_pos i)) + 1),
     snd (bounds var split v (entry max_split v) (Z.to_pos i))).
  Proof.
    intros bits d var sp ms i v Hd Hv Hs Hi Hvv. unfold split_range.
    rewrite (tree_depth_pow2 _ var (d - 1)) by (auto; lia).
    rewrite gather_fill_zget by lia. change (zget 0 ms v) with (entry ms v).
    assert (Hd2 : 2 <= d).
    { unfold heap_size in Hi. destruct (Z.eq_dec d 1); [subst; simpl in Hi; lia | lia]. }
    pose proof (split_range_iterate var sp v (entry ms v) (Z.to_nat (d - 1 - 1))
      (Z.to_pos i) 0 (1 + entry ms v)) as H.
    rewrite Z2Pos.id in H by lia. rewrite Z2Nat.id in H by lia.
    replace (d - 1 - 1 + 1) with (d - 1) in H by lia.
    destruct (iterate _ _ _) as [[l r] idx].
    destruct H as [-> ->]; try (rewrite ?Hs, ?Hv; lia).
    { unfold heap_size in Hi; lia. }
    pose proof (bounds_0 var sp v (entry ms v) (Z.to_pos i)). f_equal; [f_equal |]; lia.
  Qed.

  Lemma bounds_available : forall var split max_split i v s,
    let b := bounds var split v (entry max_split v) i in
    available var split max_split (Zpos i) v s <-> fst b + 1 <= s < snd b.
  Proof.
    intros var sp ms i v s. induction i as [q IH | q IH |]; cbn [bounds]; cbv zeta.
    - destruct (bounds var sp v (entry ms v) q) as [l r]. cbn [fst snd] in *.
      unfold available in *.
      assert (E : forall a b, 1 <= a -> descends a b (Z.pos q~1) <->
        (a = Z.pos q /\ b = true) \/ descends a b (Z.pos q)).
      { intros. change (Z.pos q~1) with (2 * Z.pos q + 1). apply descends_right; lia. }
      split.
      + intros [H1 H2].
        assert (Hq : fst (l, r) + 1 <= s < snd (l, r)).
        { apply IH. split; auto. intros a b Ha Hd. apply H2; auto. apply E; auto. }
        cbn [fst snd] in Hq. destruct (Z.eqb_spec (entry var (Z.pos q)) v) as [Ev | Ev]; auto.
        specialize (H2 (Z.pos q) true ltac:(lia)). cbv iota in H2.
        assert (entry sp (Z.pos q) < s) by (apply H2; auto; apply E; [lia | auto]). lia.
      + intros H.
        assert (Hq : fst (l, r) + 1 <= s < snd (l, r))
          by (cbn [fst snd]; destruct (_ =? v); lia).
        apply IH in Hq. destruct Hq as [H1 H2]. split; auto.
        intros a b Ha Hd Hv. apply E in Hd; auto. destruct Hd as [[-> ->] | Hd];
          [rewrite Hv, Z.eqb_refl in H; lia | exact (H2 a b Ha Hd Hv)].
    - destruct (bounds var sp v (entry ms v) q) as [l r]. cbn [fst snd] in *.
      unfold available in *.
      assert (E : forall a b, 1 <= a -> descends a b (Z.pos q~0) <->
        (a = Z.pos q /\ b = false) \/ descends a b (Z.pos q)).
      { intros. change (Z.pos q~0) with (2 * Z.pos q). apply descends_left; lia. }
      split.
      + intros [H1 H2].
        assert (Hq : fst (l, r) + 1 <= s < snd (l, r)).
        { apply IH. split; auto. intros a b Ha Hd. apply H2; auto. apply E; auto. }
        cbn [fst snd] in Hq. destruct (Z.eqb_spec (entry var (Z.pos q)) v) as [Ev | Ev]; auto.
        specialize (H2 (Z.pos q) false ltac:(lia)). cbv iota in H2.
        assert (s < entry sp (Z.pos q)) by (apply H2; auto; apply E; [lia | auto]). lia.
      + intros H.
        assert (Hq : fst (l, r) + 1 <= s < snd (l, r))
          by (cbn [fst snd]; destruct (_ =? v); lia).
        apply IH in Hq. destruct Hq as [H1 H2]. split; auto.
        intros a b Ha Hd Hv. apply E in Hd; auto. destruct Hd as [[-> ->] | Hd];
          [rewrite Hv, Z.eqb_refl in H; lia | exact (H2 a b Ha Hd Hv)].
    - cbn [fst snd]. unfold available. split.
      + lia.
      + intros H. split; [lia |]. intros a b Ha Hd. now apply descends_root in Hd.
  Qed.

  Lemma bounds_fst_lt : forall M var split v B i, 0 < B ->
    (forall a, 1 <= a -> descends a true (Zpos i) -> entry var a = v -> entry split a < B) ->
    fst (bounds var split v M i) < B.
  Proof.
    intros M var sp v B i HB. induction i as [q IH | q IH |]; intros H; cbn [bounds]; auto.
    - assert (IH' := IH (fun a Ha Hd => H a Ha (desc_down_right _ _ _ Hd))). clear IH.
      destruct (bounds var sp v M q) as [l r]. cbn [fst] in *.
      destruct (Z.eqb_spec (entry var (Z.pos q)) v) as [E | E]; auto.
      specialize (H (Z.pos q) ltac:(lia) (desc_right (Z.pos q)) E). lia.
    - assert (IH' := IH (fun a Ha Hd => H a Ha (desc_down_left _ _ _ Hd))). clear IH.
      destruct (bounds var sp v M q) as [l r]. cbn [fst] in *. auto.
  Qed.

  Lemma split_range_nowrap : forall bits d var split max_split i v l r,
    1 <= d -> zlen var = heap_size d -> zlen split = heap_size d ->
    1 <= i < heap_size d -> 0 <= v ->
    fst (bounds var split v (entry max_split v) (Z.to_pos i)) < 2 ^ bits - 1 ->
    split_range bits var split max_split i v = (l, r) ->
    forall s, l <= s < r <-> available var split max_split i v s.
  Proof.
    intros bits d var sp ms i v l r Hd Hv Hs Hi Hvv NW E s.
    rewrite (split_range_bounds bits d) in E by auto. injection E as <- <-.
    pose proof (bounds_0 var sp v (entry ms v) (Z.to_pos i)) as [B0 _].
    rewrite wrap_small by lia.
    pose proof (bounds_available var sp ms (Z.to_pos i) v s) as B.
    rewrite Z2Pos.id in B by lia. cbv zeta in B. now rewrite B.
  Qed.

  Lemma split_range_available : forall bits d var split max_split i v l r,
    1 <= d -> zlen var = heap_size d -> zlen split = heap_size d ->
    1 <= i < heap_size d -> 0 <= v -> 1 <= bits ->
    (forall a, 1 <= a -> descends a true i -> entry var a = v -> entry split a < 2 ^ bits - 1) ->
    split_range bits var split max_split i v = (l, r) ->
    forall s, l <= s < r <-> available var split max_split i v s.
  Proof.
    intros bits d var sp ms i v l r Hd Hv Hs Hi Hvv Hb NW. apply (split_range_nowrap bits d); auto.
    assert (2 ^ 1 <= 2 ^ bits) by (apply Z.pow_le_mono_r; lia). change (2 ^ 1) with 2 in *.
    apply bounds_fst_lt; [lia |]. rewrite Z2Pos.id by lia. auto.
  Qed.

  (** if a cutpoint is available there is no wraparound *)
  Lemma available_nowrap : forall bits var split max_split i v s, 1 <= i ->
    entry max_split v < 2 ^ bits -> available var split max_split i v s ->
    fst (bounds var split v (entry max_split v) (Z.to_pos i)) < 2 ^ bits - 1.
  Proof.
    intros bits var sp ms i v s Hi Hm A.
    pose proof (bounds_available var sp ms (Z.to_pos i) v s) as B.
    rewrite Z2Pos.id in B by lia. apply B in A. cbv zeta in A.
    pose proof (bounds_0 var sp v (entry ms v) (Z.to_pos i)). lia.
  Qed.

  Context {fo : fops} {g : rng fo}.

  Lemma choose_split_available : forall bits d var split max_split i k,
    1 <= d -> zlen var = heap_size d -> zlen split = heap_size d ->
    1 <= i < heap_size d -> 0 <= entry var i -> entry max_split (entry var i) < 2 ^ bits ->
    (exists s, available var split max_split i (entry var i) s) ->
    available var split max_split i (entry var i)
      (choose_split bits var split max_split i k).
  Proof.
    intros bits d var sp ms i k Hd Hv Hs Hi Hvv Hm (s & Hs').
    unfold choose_split. rewrite (gather_in _ _ 0) by lia.
    change (zget 0 var i) with (entry var i).
    destruct (split_range bits var sp ms i (entry var i)) as [l r] eqn:E.
    pose proof (available_nowrap bits _ _ _ _ _ _ (proj1 Hi) Hm Hs') as NW.
    pose proof (split_range_nowrap bits d _ _ _ _ _ _ _ Hd Hv Hs Hi Hvv NW E) as A.
    apply A. apply A in Hs'. apply randint_bounds. lia.
  Qed.
End Range.

(** ** variables of the ancestors *)

Lemma div_pow_S : forall i k, 1 <= k -> i / 2 ^ k = i / 2 / 2 ^ (k - 1).
Proof.
  intros. rewrite Z.div_div by (try apply pow2_pos; lia).
  now rewrite <- pow2_pred by lia.
Qed.

Lemma descends_pow : forall a i, 1 <= a -> 1 <= i ->
  ((exists b, descends a b i) <-> exists k, 1 <= k /\ a = i / 2 ^ k).
Proof.
  intros a i Ha Hi. revert a Ha. pattern i. revert i Hi. apply node_ind.
  - intros a Ha; split.
    + intros [b H]. now apply descends_root in H.
    + intros (k & Hk & E). assert (1 < 2 ^ k) by (apply Z.pow_gt_1; lia).
      rewrite Z.div_small in E by lia. lia.
  - intros i Hi IH a Ha. split.
    + intros [b H]. apply descends_left in H; auto. destruct H as [[-> _] | H].
      * exists 1. split; [lia |]. change (2 ^ 1) with 2. lia.
      * assert (Hx : exists b, descends a b i) by eauto.
        apply IH in Hx; auto. destruct Hx as (k & Hk & ->).
        exists (k + 1). split; [lia |].
        rewrite (div_pow_S _ (k + 1)) by lia. f_equal; [lia | f_equal; lia].
    + intros (k & Hk & E). destruct (Z.eq_dec k 1).
      * subst k. change (2 ^ 1) with 2 in E. exists false. replace a with i by lia. apply desc_left.
      * assert (Hx : exists b, descends a b i).
        { apply IH; auto. exists (k - 1). split; [lia |]. rewrite E.
          rewrite (div_pow_S _ k) by lia. f_equal; lia. }
        destruct Hx as [b Hx]. exists b. now apply desc_down_left.
  - intros i Hi IH a Ha. split.
    + intros [b H]. apply descends_right in H; auto. destruct H as [[-> _] | H].
      * exists 1. split; [lia |]. change (2 ^ 1) with 2. lia.
      * assert (Hx : exists b, descends a b i) by eauto.
        apply IH in Hx; auto. destruct Hx as (k & Hk & ->).
        exists (k + 1). split; [lia |].
        rewrite (div_pow_S _ (k + 1)) by lia. f_equal; [lia | f_equal; lia].
    + intros (k & Hk & E). destruct (Z.eq_dec k 1).
      * subst k. change (2 ^ 1) with 2 in E. exists true. replace a with i by lia. apply desc_right.
      * assert (Hx : exists b, descends a b i).
        { apply IH; auto. exists (k - 1). split; [lia |]. rewrite E.
          rewrite (div_pow_S _ k) by lia. f_equal; lia. }
        destruct Hx as [b Hx]. exists b. now apply desc_down_right.
Qed.

Lemma minimal_bits_mono : forall x y, x <= y ->
  minimal_unsigned_bits x <= minimal_unsigned_bits y.
Proof.
  intros; unfold minimal_unsigned_bits.
  destruct (Z.ltb_spec x (2 ^ 8)), (Z.ltb_spec y (2 ^ 8)); try lia;
  destruct (Z.ltb_spec x (2 ^ 16)), (Z.ltb_spec y (2 ^ 16)); try lia;
  destruct (Z.ltb_spec x (2 ^ 32)), (Z.ltb_spec y (2 ^ 32)); try lia.
Qed.

(** the variables used above a node are in the dtype chosen by [init] *)
Definition var_dtype (p : Z) (var : list Z) (i : Z) : Prop :=
  forall a b, 1 <= a -> descends a b i ->
    0 <= entry var a < 2 ^ minimal_unsigned_bits (p - 1).

Section Vars.
  Context {zo : zoob}.
  Variables (bits d : Z) (var split max_split : list Z) (i : Z).
  Let p := zlen max_split.
  Let filler := wrap (minimal_unsigned_bits (p - 1)) p.
  Hypothesis Hd : 2 <= d <= 64.
  Hypothesis Hvar : zlen var = heap_size d.
  Hypothesis Hsplit : zlen split = heap_size d.
  Hypothesis Hi : 1 <= i < heap_size d.
  Hypothesis Hp : 1 <= p < 2 ^ 64.
  Hypothesis Hdt : var_dtype p var i.

  Lemma var_wrap : forall a b, 1 <= a -> descends a b i ->
    wrap (minimal_unsigned_bits p) (entry var a) = entry var a.
  Proof.
    intros a b Ha Hb. apply wrap_small. pose proof (Hdt a b Ha Hb) as H.
    assert (2 ^ minimal_unsigned_bits (p - 1) <= 2 ^ minimal_unsigned_bits p).
    { apply Z.pow_le_mono_r; [lia |]. apply minimal_bits_mono. lia. }
    lia.
  Qed.

  (** the filler is p if this fits in the dtype of the variables, else 0 *)
  Lemma filler_value : filler = p \/ filler = 0 /\ (p = 2 ^ 8 \/ p = 2 ^ 16 \/ p = 2 ^ 32).
  Proof.
    clear - Hp. pose proof (minimal_unsigned_bits_fits (p - 1) ltac:(lia)) as F.
    unfold filler. destruct (Z.lt_ge_cases p (2 ^ minimal_unsigned_bits (p - 1))) as [L | L].
    - left. apply wrap_small. lia.
    - right. assert (E : p = 2 ^ minimal_unsigned_bits (p - 1)) by lia. split.
      + unfold wrap. rewrite E at 1. apply Z.mod_same. lia.
      + revert E Hp. unfold minimal_unsigned_bits.
        destruct (_ <? _); auto. destruct (_ <? _); auto. destruct (_ <? _); auto. lia.
  Qed.

  Lemma ancestor_variables_zget :
    zlen (ancestor_variables var max_split i) = d - 2 /\
    forall j, 0 <= j < d - 2 ->
      zget 0 (ancestor_variables var max_split i) j =
      let a := i / 2 ^ (d - 2 - j) in if a =? 0 then filler else entry var a.
  Proof.
    unfold ancestor_variables.
    rewrite (tree_depth_pow2 _ var (d - 1)) by (auto; lia).
    replace (d - 1 - 1) with (d - 2) by lia.
    set (sz := d - 2). fold p. rewrite zlen_full by lia.
    fold filler.
    set (abits := minimal_unsigned_bits p).
    assert (Hbp : wrap abits filler = filler).
    { apply wrap_small. pose proof (minimal_unsigned_bits_fits p ltac:(lia)).
      fold abits in H. destruct filler_value as [-> | [-> _]]; lia. }
    set (P := fun (k : nat) (c : Z * Z * list Z) =>
      Z.of_nat k <= sz ->
      fst (fst c) = sz - 1 - Z.of_nat k /\ snd (fst c) = i / 2 ^ Z.of_nat k /\
      zlen (snd c) = sz /\
      forall j, sz - Z.of_nat k <= j < sz -> zget 0 (snd c) j =
        let a := i / 2 ^ (sz - j) in if a =? 0 then filler else entry var a).
    assert (H : P (Z.to_nat sz) (iterate (Z.to_nat sz) (ancestor_loop abits p var) (sz - 1, i, full sz 0))).
    { apply iterate_ind.
      - intros _. cbn [fst snd]. change (Z.of_nat 0) with 0. change (2 ^ 0) with 1.
        rewrite Z.div_1_r, zlen_full by lia. repeat split; auto; lia.
      - intros k [[i0 idx] arr] IH Hk.
        destruct IH as (E1 & E2 & E3 & E4); [lia |]. cbn [fst snd] in *. subst i0 idx.
        unfold ancestor_loop. rewrite shiftr_1. cbn [fst snd].
        assert (Eidx : i / 2 ^ Z.of_nat k / 2 = i / 2 ^ Z.of_nat (S k)).
        { rewrite Z.div_div by (try apply pow2_pos; lia). f_equal.
          rewrite Nat2Z.inj_succ, Z.pow_succ_r by lia. lia. }
        rewrite Eidx. rewrite zlen_scatter_set.
        repeat split; try lia.
        intros j Hj. rewrite zget_scatter_set by lia.
        destruct (Z.eqb_spec (sz - 1 - Z.of_nat k) j) as [Ej | Ej].
        + replace (sz - j) with (Z.of_nat (S k)) by lia. cbv zeta.
          set (a := i / 2 ^ Z.of_nat (S k)).
          assert (Ha : 0 <= a < zlen var).
          { unfold a. split; [apply Z.div_pos; [lia | apply pow2_pos; lia] |].
            rewrite Hvar. apply Z.le_lt_trans with i; [| lia].
            apply Z.div_le_upper_bound; [apply pow2_pos; lia |].
            pose proof (pow2_pos (Z.of_nat (S k))). nia. }
          rewrite (gather_in _ _ 0) by lia. change (zget 0 var a) with (entry var a).
          destruct (Z.eqb_spec a 0); cbn [negb]; [exact Hbp |].
          assert (Hx : exists b, descends a b i).
          { apply descends_pow; [lia | lia |]. exists (Z.of_nat (S k)). split; [lia | reflexivity]. }
          destruct Hx as [b Hb]. apply (var_wrap a b); auto. lia.
        + apply E4. lia. }
    unfold P in H. rewrite Z2Nat.id in H by lia.
    destruct (iterate _ _ _) as [[i0 idx] arr]. cbn [fst snd] in *.
    destruct H as (_ & _ & H3 & H4); [lia |]. split; auto.
    intros j Hj. apply H4. lia.
  Qed.

  Lemma ancestor_variables_above : forall a b, 1 <= a -> descends a b i ->
    In (entry var a) (ancestor_variables var max_split i).
  Proof.
    intros a b Ha Hb. destruct ancestor_variables_zget as [HL HZ].
    assert (Hx : exists b, descends a b i) by eauto.
    apply descends_pow in Hx; [| lia | lia]. destruct Hx as (k & Hk & Ek).
    assert (Hk2 : k <= d - 2).
    { destruct (Z.le_gt_cases k (d - 2)); auto.
      assert (i / 2 ^ k = 0); [| lia]. apply Z.div_small. split; [lia |].
      unfold heap_size in Hi. apply Z.lt_le_trans with (2 ^ (d - 1)); [lia |].
      apply Z.pow_le_mono_r; lia. }
    replace (entry var a) with (zget 0 (ancestor_variables var max_split i) (d - 2 - k)).
    - apply zget_In. rewrite HL. lia.
    - rewrite HZ by lia. replace (d - 2 - (d - 2 - k)) with k by lia.
      cbv zeta. rewrite <- Ek. destruct (Z.eqb_spec a 0); [lia | auto].
  Qed.

  Lemma ancestor_variables_cases : forall v, In v (ancestor_variables var max_split i) ->
    v = filler \/ exists a b, 1 <= a /\ descends a b i /\ entry var a = v.
  Proof.
    intros v H. destruct ancestor_variables_zget as [HL HZ].
    apply In_zget with (d := 0) in H. destruct H as (j & Hj & E).
    rewrite HL in Hj. rewrite HZ in E by lia. cbv zeta in E.
    destruct (Z.eqb_spec (i / 2 ^ (d - 2 - j)) 0) as [E0 | E0]; [auto |]. right.
    set (a := i / 2 ^ (d - 2 - j)) in *.
    assert (0 <= a) by (apply Z.div_pos; [lia | apply pow2_pos; lia]).
    assert (Ha : exists b, descends a b i).
    { apply descends_pow; [lia | lia |]. exists (d - 2 - j). split; [lia | reflexivity]. }
    destruct Ha as [b Hb]. exists a, b. split; [lia | auto].
  Qed.

  Lemma ancestor_variables_In : p <> 2 ^ 8 -> p <> 2 ^ 16 -> p <> 2 ^ 32 -> forall v, 0 <= v < p ->
    (In v (ancestor_variables var max_split i) <->
     exists a b, 1 <= a /\ descends a b i /\ entry var a = v).
  Proof.
    intros P1 P2 P3 v Hv. split.
    - intros H. apply ancestor_variables_cases in H. destruct H as [E | H]; auto.
      pose proof filler_value. lia.
    - intros (a & b & Ha & Hb & <-). eapply ancestor_variables_above; eauto.
  Qed.

  Lemma ancestor_variables_range : forall v,
    In v (ancestor_variables var max_split i) -> 0 <= v.
  Proof.
    intros v H. apply ancestor_variables_cases in H. destruct H as [E | (a & b & Ha & Hb & <-)].
    - pose proof filler_value. lia.
    - apply (Hdt a b); auto.
  Qed.

  Lemma fully_used_nonneg : forall v,
    In v (fully_used_variables bits var split max_split i) -> 0 <= v.
  Proof.
    intros v H. unfold fully_used_variables in H. apply in_map_iff in H.
    destruct H as (w & E & Hw). apply ancestor_variables_range in Hw.
    destruct (split_range _ _ _ _ _). destruct (_ =? 0); subst; auto.
    pose proof (zlen_nonneg _ max_split). auto.
  Qed.

  Lemma fully_used_zlen : zlen (fully_used_variables bits var split max_split i) = d - 2.
  Proof. unfold fully_used_variables. rewrite zlen_map. apply ancestor_variables_zget. Qed.

  (** the range of a variable is empty *)
  Let no_range (v : Z) : Prop :=
    let bd := bounds var split v (entry max_split v) (Z.to_pos i) in
    wrap bits (fst bd + 1) = snd bd.

  Lemma fully_used_sound : forall v, 0 <= v < p ->
    In v (fully_used_variables bits var split max_split i) ->
    no_range v /\ (v = filler \/ exists a b, 1 <= a /\ descends a b i /\ entry var a = v).
  Proof.
    intros v Hv. unfold fully_used_variables. rewrite in_map_iff.
    intros (w & E & Hw). pose proof (ancestor_variables_range _ Hw) as Hw0.
    rewrite (split_range_bounds bits d) in E by (auto; lia).
    destruct (Z.eqb_spec (snd (bounds var split w (entry max_split w) (Z.to_pos i)) -
      wrap bits (fst (bounds var split w (entry max_split w) (Z.to_pos i)) + 1)) 0).
    - subst w. split; [unfold no_range; cbv zeta; lia |]. now apply ancestor_variables_cases.
    - fold p in E. lia.
  Qed.

  Lemma fully_used_complete : forall a b, 1 <= a -> descends a b i -> no_range (entry var a) ->
    In (entry var a) (fully_used_variables bits var split max_split i).
  Proof.
    intros a b Ha Hb H. unfold fully_used_variables. rewrite in_map_iff.
    exists (entry var a). split; [| eapply ancestor_variables_above; eauto].
    rewrite (split_range_bounds bits d) by (auto; try lia; apply (Hdt a b); auto).
    unfold no_range in H. cbv zeta in H. rewrite (proj2 (Z.eqb_eq _ _)); auto. lia.
  Qed.

  Context {fo : fops} {g : rng fo}.

  Lemma choose_variable_cases : forall k,
    let v := choose_variable bits var split max_split i k in
    (0 <= v < p /\ ~ In v (fully_used_variables bits var split max_split i)) \/
    (p <= v <= d - 2 /\
     forall w, 0 <= w < p -> In w (fully_used_variables bits var split max_split i)).
  Proof.
    intros k v. unfold v, choose_variable. fold p.
    set (E := fully_used_variables bits var split max_split i).
    assert (Hpos : forall e, In e E -> 0 <= e) by apply fully_used_nonneg.
    pose proof (allowed_before_nonneg E p) as Hn.
    destruct (Z.eq_dec (allowed_before E p) 0) as [E0 | E0].
    - right. pose proof (randint_exclude_full k p E ltac:(lia) Hpos E0) as B.
      assert (EL : zlen E = d - 2) by apply fully_used_zlen. split; [lia |].
      apply allowed_before_zero; auto. lia.
    - left. destruct (randint_exclude_spec k p E ltac:(lia) Hpos ltac:(lia)) as (u & _ & _ & H).
      destruct (proj1 (H _) eq_refl) as [[H1 H2] _]. auto.
  Qed.
End Vars.

(** ** when the rules above are valid *)

Lemma desc_xI : forall a b q, descends a b (Zpos q) -> descends a b (Zpos (xI q)).
Proof. intros. change (Zpos (xI q)) with (2 * Zpos q + 1). now apply desc_down_right. Qed.
Lemma desc_xO : forall a b q, descends a b (Zpos q) -> descends a b (Zpos (xO q)).
Proof. intros. change (Zpos (xO q)) with (2 * Zpos q). now apply desc_down_left. Qed.
Lemma desc_xI0 : forall q, descends (Zpos q) true (Zpos (xI q)).
Proof. intros. change (Zpos (xI q)) with (2 * Zpos q + 1). apply desc_right. Qed.
Lemma desc_xO0 : forall q, descends (Zpos q) false (Zpos (xO q)).
Proof. intros. change (Zpos (xO q)) with (2 * Zpos q). apply desc_left. Qed.

Lemma bounds_not_above : forall var split v M i,
  (forall a b, 1 <= a -> descends a b (Zpos i) -> entry var a <> v) ->
  bounds var split v M i = (0, M + 1).
Proof.
  intros var sp v M. induction i as [q IH | q IH |]; intros H; auto; cbn [bounds].
  - rewrite IH.
    + destruct (Z.eqb_spec (entry var (Z.pos q)) v) as [E | E]; auto.
      exfalso. apply (H (Z.pos q) true); auto; [lia | apply desc_xI0].
    + intros a b Ha Hd. apply (H a b); auto. now apply desc_xI.
  - rewrite IH.
    + destruct (Z.eqb_spec (entry var (Z.pos q)) v) as [E | E]; auto.
      exfalso. apply (H (Z.pos q) false); auto; [lia | apply desc_xO0].
    + intros a b Ha Hd. apply (H a b); auto. now apply desc_xO.
Qed.

(** if all rules above on [v] are valid, the range is never reversed *)
Lemma bounds_ordered : forall var split max_split v i,
  0 <= entry max_split v ->
  (forall a b, 1 <= a -> descends a b (Zpos i) -> entry var a = v ->
     valid_rule var split max_split a) ->
  let bd := bounds var split v (entry max_split v) i in fst bd + 1 <= snd bd.
Proof.
  intros var sp ms v i HM. induction i as [q IH | q IH |]; intros H; cbn [bounds]; cbv zeta in *.
  - assert (IH' := IH (fun a b Ha Hd => H a b Ha (desc_xI _ _ _ Hd))). clear IH.
    destruct (bounds var sp v (entry ms v) q) as [l r] eqn:Eb. cbn [fst snd] in *.
    destruct (Z.eqb_spec (entry var (Z.pos q)) v) as [E | E]; auto.
    assert (V : valid_rule var sp ms (Z.pos q)) by (apply (H _ true); auto; [lia | apply desc_xI0]).
    unfold valid_rule in V. apply bounds_available in V. rewrite E, Eb in V. simpl in V. lia.
  - assert (IH' := IH (fun a b Ha Hd => H a b Ha (desc_xO _ _ _ Hd))). clear IH.
    destruct (bounds var sp v (entry ms v) q) as [l r] eqn:Eb. cbn [fst snd] in *.
    destruct (Z.eqb_spec (entry var (Z.pos q)) v) as [E | E]; auto.
    assert (V : valid_rule var sp ms (Z.pos q)) by (apply (H _ false); auto; [lia | apply desc_xO0]).
    unfold valid_rule in V. apply bounds_available in V. rewrite E, Eb in V. simpl in V. lia.
  - cbn [fst snd]. lia.
Qed.

(** node [i] is to the right of a rule on [v] with the largest cutpoint that
    the dtype can represent *)
Definition spill (bits : Z) (var split : list Z) (i v : Z) : Prop :=
  exists a, 1 <= a /\ descends a true i /\ entry var a = v /\ entry split a = 2 ^ bits - 1.

Lemma spill_dec : forall bits var split v i,
  spill bits var split (Zpos i) v \/ ~ spill bits var split (Zpos i) v.
Proof.
  intros bits var sp v i. induction i as [q IH | q IH |].
  - destruct (Z.eq_dec (entry var (Z.pos q)) v) as [E | E];
      [destruct (Z.eq_dec (entry sp (Z.pos q)) (2 ^ bits - 1)) as [E' | E'] |].
    + left. exists (Z.pos q). split; [lia |]. split; auto. apply desc_xI0.
    + destruct IH as [(a & Ha & Hb & H) | N]; [left; exists a; split; auto; split; [now apply desc_xI | auto] |].
      right. intros (a & Ha & Hb & H1 & H2). change (Z.pos q~1) with (2 * Z.pos q + 1) in Hb.
      apply descends_right in Hb; [| lia..]. destruct Hb as [[-> _] | Hb]; [auto |].
      apply N. exists a. auto.
    + destruct IH as [(a & Ha & Hb & H) | N]; [left; exists a; split; auto; split; [now apply desc_xI | auto] |].
      right. intros (a & Ha & Hb & H1 & H2). change (Z.pos q~1) with (2 * Z.pos q + 1) in Hb.
      apply descends_right in Hb; [| lia..]. destruct Hb as [[-> _] | Hb]; [auto |].
      apply N. exists a. auto.
  - destruct IH as [(a & Ha & Hb & H) | N]; [left; exists a; split; auto; split; [now apply desc_xO | auto] |].
    right. intros (a & Ha & Hb & H1 & H2). change (Z.pos q~0) with (2 * Z.pos q) in Hb.
    apply descends_left in Hb; [| lia..]. destruct Hb as [[-> Hb] | Hb]; [discriminate |].
    apply N. exists a. auto.
  - right. intros (a & Ha & Hb & _). now apply descends_root in Hb.
Qed.

Lemma bounds_fst_ge : forall var split v M a i, descends a true (Zpos i) -> 1 <= a ->
  entry var a = v -> entry split a <= fst (bounds var split v M i).
Proof.
  intros var sp v M a i. induction i as [q IH | q IH |]; intros Hb Ha E; cbn [bounds].
  - change (Z.pos q~1) with (2 * Z.pos q + 1) in Hb. apply descends_right in Hb; [| lia..].
    destruct (bounds var sp v M q) as [l r]. cbn [fst] in *.
    destruct Hb as [[-> _] | Hb].
    + rewrite E, Z.eqb_refl. lia.
    + specialize (IH Hb Ha E). destruct (_ =? v); lia.
  - change (Z.pos q~0) with (2 * Z.pos q) in Hb. apply descends_left in Hb; [| lia..].
    destruct (bounds var sp v M q) as [l r]. cbn [fst] in *.
    destruct Hb as [[-> Hb] | Hb]; [discriminate | auto].
  - now apply descends_root in Hb.
Qed.

(** the lower bound is the largest value of the dtype exactly in that case *)
Lemma spill_bounds : forall bits var split v M i, 1 <= bits ->
  (forall a, 1 <= a -> descends a true (Zpos i) -> entry var a = v -> entry split a < 2 ^ bits) ->
  fst (bounds var split v M i) < 2 ^ bits /\
  (spill bits var split (Zpos i) v <-> fst (bounds var split v M i) = 2 ^ bits - 1).
Proof.
  intros bits var sp v M i Hb H.
  assert (2 ^ 1 <= 2 ^ bits) by (apply Z.pow_le_mono_r; lia). change (2 ^ 1) with 2 in *.
  assert (L : fst (bounds var sp v M i) < 2 ^ bits) by (apply bounds_fst_lt; auto; lia).
  split; auto. split.
  - intros (a & Ha & Hd & E1 & E2). pose proof (bounds_fst_ge var sp v M a i Hd Ha E1). lia.
  - intros E. destruct (spill_dec bits var sp v i) as [Y | N]; auto. exfalso.
    assert (fst (bounds var sp v M i) < 2 ^ bits - 1); [| lia].
    apply bounds_fst_lt; [lia |]. intros a Ha Hd Ev. specialize (H a Ha Hd Ev).
    destruct (Z.eq_dec (entry sp a) (2 ^ bits - 1)) as [Y | N']; [| lia].
    elim N. exists a. auto.
Qed.

(** with valid rules above, a variable with cutpoints is excluded exactly if it
    has no available cutpoints, unless this is due to a rule with the largest
    cutpoint of the dtype *)
Lemma fully_used_exact : forall {zo : zoob} bits d var split max_split i v,
  2 <= d <= 64 -> zlen var = heap_size d -> zlen split = heap_size d ->
  1 <= i < heap_size d -> 1 <= zlen max_split < 2 ^ 64 -> 1 <= bits ->
  var_dtype (zlen max_split) var i ->
  (forall a b, 1 <= a -> descends a b i -> valid_rule var split max_split a) ->
  0 <= v < zlen max_split -> 1 <= entry max_split v < 2 ^ bits ->
  (In v (fully_used_variables bits var split max_split i) <->
   (~ exists s, available var split max_split i v s) /\ ~ spill bits var split i v).
Proof.
  intros zo bits d var sp ms i v Hd Hv Hs Hi Hp Hb Hdt Hval Hvr HM.
  set (bd := bounds var sp v (entry ms v) (Z.to_pos i)).
  assert (Hav : forall s, available var sp ms i v s <-> fst bd + 1 <= s < snd bd).
  { intros s. pose proof (bounds_available var sp ms (Z.to_pos i) v s) as B.
    rewrite Z2Pos.id in B by lia. exact B. }
  assert (O : fst bd + 1 <= snd bd).
  { apply bounds_ordered; [lia |]. intros a b Ha Hd' _. rewrite Z2Pos.id in Hd' by lia. eauto. }
  pose proof (bounds_0 var sp v (entry ms v) (Z.to_pos i)) as B0. fold bd in B0.
  destruct (spill_bounds bits var sp v (entry ms v) (Z.to_pos i) Hb) as [SB1 SB2].
  { rewrite Z2Pos.id by lia. intros a Ha Hd' Ev. destruct (Hval a _ Ha Hd') as [V _].
    rewrite Ev in V. lia. }
  rewrite Z2Pos.id in SB2 by lia. fold bd in SB1, SB2. rewrite SB2.
  split.
  - intros H. apply (fully_used_sound bits d) in H; auto. destruct H as [H _]. cbv zeta in H.
    fold bd in H.
    assert (W : fst bd + 1 < 2 ^ bits).
    { destruct (Z.lt_ge_cases (fst bd + 1) (2 ^ bits)) as [L | L]; auto. exfalso.
      replace (fst bd + 1) with (2 ^ bits) in H by lia. unfold wrap in H.
      rewrite Z.mod_same in H by lia. lia. }
    rewrite wrap_small in H by lia. split; [| lia]. intros [s A]. apply Hav in A. lia.
  - intros [N W].
    assert (HN : snd bd = fst bd + 1).
    { destruct (Z.le_gt_cases (snd bd) (fst bd + 1)); [lia |]. elim N.
      exists (fst bd + 1). apply Hav. lia. }
    assert (Hanc : ~ ~ exists a b, 1 <= a /\ descends a b i /\ entry var a = v).
    { intros Y. assert (E : bd = (0, entry ms v + 1)).
      { apply bounds_not_above. intros a b Ha Hb' Ev. rewrite Z2Pos.id in Hb' by lia.
        apply Y. eauto. }
      rewrite E in HN. cbn [fst snd] in HN. lia. }
    destruct (in_dec Z.eq_dec v (fully_used_variables bits var sp ms i)) as [Y | Y]; auto.
    elim Hanc. intros (a & b & Ha & Hb' & Ev). apply Y. rewrite <- Ev.
    apply (fully_used_complete bits d var sp ms i Hd Hv Hs Hi Hp Hdt a b Ha Hb').
    rewrite Ev. cbv zeta. fold bd. rewrite wrap_small; lia.
Qed.

Lemma entry_pos_lt : forall l v, 0 < entry l v -> v < zlen l.
Proof.
  intros l v H. destruct (Z.lt_ge_cases v (zlen l)) as [L | L]; auto.
  rewrite entry_over in H by auto. lia.
Qed.

Lemma valid_var_dtype : forall var split max_split i,
  1 <= zlen max_split < 2 ^ 64 ->
  (forall a b, 1 <= a -> descends a b i ->
     0 <= entry var a /\ valid_rule var split max_split a) ->
  var_dtype (zlen max_split) var i.
Proof.
  intros var sp ms i Hp H a b Ha Hb. destruct (H a b Ha Hb) as [H0 [H1 _]].
  split; auto.
  assert (entry var a < zlen ms) by (apply entry_pos_lt; lia).
  pose proof (minimal_unsigned_bits_fits (zlen ms - 1) ltac:(lia)). lia.
Qed.

Lemma allowed_before_ext : forall E E' n,
  (forall v, 0 <= v < n -> (In v E <-> In v E')) ->
  allowed_before E n = allowed_before E' n.
Proof.
  intros E E' n H. unfold allowed_before. do 2 f_equal.
  apply filter_ext_in. intros x Hx. apply in_seq in Hx.
  specialize (H (Z.of_nat x) ltac:(lia)).
  destruct (in_dec Z.eq_dec (Z.of_nat x) E), (in_dec Z.eq_dec (Z.of_nat x) E'); tauto.
Qed.

Lemma choose_variable_exact : forall {zo : zoob} {fo : fops} {g : rng fo}
    bits d var split max_split i k exhausted,
  2 <= d <= 64 -> zlen var = heap_size d -> zlen split = heap_size d ->
  1 <= i < heap_size d -> 1 <= zlen max_split < 2 ^ 64 ->
  1 <= bits ->
  (forall v, 0 <= v < zlen max_split -> 1 <= entry max_split v < 2 ^ bits - 1) ->
  (forall a b, 1 <= a -> descends a b i ->
     0 <= entry var a /\ valid_rule var split max_split a) ->
  (forall v, 0 <= v < zlen max_split ->
     (In v exhausted <-> ~ exists s, available var split max_split i v s)) ->
  let count := allowed_before exhausted (zlen max_split) in
  (0 < count ->
    exists u, 0 <= u < count /\ u = r_bits k mod count /\
      forall v, choose_variable bits var split max_split i k = v <->
                allowed (zlen max_split) exhausted v /\ allowed_before exhausted v = u) /\
  (count = 0 -> zlen max_split <= choose_variable bits var split max_split i k <= d - 2).
Proof.
  intros zo fo g bits d var sp ms i k exh Hd Hv Hs Hi Hp Hb Hms Hval Hexh count.
  assert (Hdt : var_dtype (zlen ms) var i) by (eapply valid_var_dtype; eauto).
  set (E := fully_used_variables bits var sp ms i).
  assert (HE : forall v, 0 <= v < zlen ms -> (In v E <-> In v exh)).
  { intros v Hvr. specialize (Hms v Hvr). rewrite Hexh by auto.
    unfold E. rewrite (fully_used_exact bits d); auto; [| intros a b Ha Hd'; now apply (Hval a b) | lia].
    split; [tauto |]. intros N; split; auto. intros (a & Ha & Hd' & Ev & Ea).
    destruct (Hval a _ Ha Hd') as [_ [V _]]. rewrite Ev in V. lia. }
  assert (Ec : allowed_before E (zlen ms) = count) by (apply allowed_before_ext; auto).
  assert (Hpos : forall e, In e E -> 0 <= e) by (intros e; apply (fully_used_nonneg bits d); auto).
  split.
  - intros Hc. unfold choose_variable. fold E.
    pose proof (randint_exclude_spec k (zlen ms) E ltac:(lia) Hpos) as R. cbv zeta in R.
    rewrite Ec in R. destruct (R Hc) as (u & Hu & Eu & HR). exists u. split; auto. split; auto.
    intros v. rewrite HR. unfold allowed. split; intros [[H1 H2] H3].
    + rewrite <- HE by auto. split; auto. rewrite <- H3. apply allowed_before_ext.
      intros w Hw. symmetry. apply HE. lia.
    + rewrite HE by auto. split; auto. rewrite <- H3. apply allowed_before_ext.
      intros w Hw. apply HE. lia.
  - intros Hc. unfold choose_variable. fold E.
    assert (EL : zlen E = d - 2) by (apply (fully_used_zlen bits d); auto).
    rewrite <- EL. apply randint_exclude_full; auto; [lia | congruence].
Qed.

Lemma choose_split_exact : forall {zo : zoob} {fo : fops} {g : rng fo}
    bits d var split max_split i k,
  1 <= d -> zlen var = heap_size d -> zlen split = heap_size d ->
  1 <= i < heap_size d -> 0 <= entry var i -> entry max_split (entry var i) < 2 ^ bits ->
  (exists s, available var split max_split i (entry var i) s) ->
  exists lo n u, 0 <= u < n /\ u = r_bits k mod n /\
    (forall s, available var split max_split i (entry var i) s <-> lo <= s < lo + n) /\
    choose_split bits var split max_split i k = lo + u.
Proof.
  intros zo fo g bits d var sp ms i k Hd Hv Hs Hi Hvv Hm (s & Hs').
  unfold choose_split. rewrite (gather_in _ _ 0) by lia.
  change (zget 0 var i) with (entry var i).
  destruct (split_range bits var sp ms i (entry var i)) as [l r] eqn:E.
  pose proof (available_nowrap bits _ _ _ _ _ _ (proj1 Hi) Hm Hs') as NW.
  pose proof (split_range_nowrap bits d _ _ _ _ _ _ _ Hd Hv Hs Hi Hvv NW E) as A.
  apply A in Hs'. exists l, (r - l), (r_bits k mod (r - l)).
  assert (0 < r - l) by lia. split; [apply Z.mod_pos_bound; lia |].
  split; auto. split.
  - intros s'. rewrite <- A. lia.
  - unfold randint. destruct (Z.leb_spec r l); [exfalso; clear - H H0; lia | reflexivity].
Qed.
