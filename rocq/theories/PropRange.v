(** Properties C21 and C22: cutpoints and variables available at a node. *)
From Coq Require Import ZArith List Bool Lia.
From Verif Require Import Base LemBase ModelStep SpecTree SpecSampling SpecRange
  ProofTree ProofSampling ProofRange Examples PropSampling.
Import ListNotations.
Open Scope Z_scope.

(** C21. The range is exact, at any node of any tree, for any variable. [bits]
    is the size of the integer type of the cutpoints; no rule on the way, of
    which the node is on the right, has the largest value of the type as
    cutpoint. *)
Theorem C21_split_range_exact :
  forall {zo : zoob} bits d var split max_split i v l r,
  1 <= d -> zlen var = heap_size d -> zlen split = heap_size d ->
  1 <= i < heap_size d -> 0 <= v -> 1 <= bits ->
  (forall a, 1 <= a -> descends a true i -> entry var a = v -> entry split a < 2 ^ bits - 1) ->
  split_range bits var split max_split i v = (l, r) ->
  forall s, l <= s < r <-> available var split max_split i v s.
Proof. exact @split_range_available. Qed.
Print Assumptions C21_split_range_exact.

(** C21. The condition on the rules above is needed: with 8-bit cutpoints, 255 of
    them, below the rule "x >= 255" there are no cutpoints left, but the range
    is 0, ..., 255, of which 0 is not even a cutpoint. *)
Theorem C21_split_range_overflow_refuted :
  exists d var split max_split i v,
    zlen var = heap_size d /\ zlen split = heap_size d /\ 1 <= i < heap_size d /\
    (forall a b, 1 <= a -> descends a b i ->
       0 <= entry var a /\ entry split a < 2 ^ 8 /\ valid_rule var split max_split a) /\
    (forall s, ~ available var split max_split i v s) /\
    forall (zo : zoob), split_range 8 var split max_split i v = (0, 256).
Proof.
  exists 3, [0; 0; 0; 0], [0; 255; 0; 0], [255], 3, 0.
  split; [reflexivity |]. split; [reflexivity |]. split; [unfold heap_size; simpl; lia |].
  assert (D3 : forall a b, 1 <= a -> descends a b 3 -> a = 1 /\ b = true).
  { intros a b Ha Hd. change 3 with (2 * 1 + 1) in Hd. apply descends_right in Hd; try lia.
    destruct Hd as [[-> ->] | Hd]; auto. now apply descends_root in Hd. }
  split; [| split].
  - intros a b Ha Hd. destruct (D3 a b Ha Hd) as [-> ->].
    split; [unfold entry; simpl; lia |]. split; [unfold entry; simpl; lia |].
    split; [unfold entry; simpl; lia |]. intros a' b' Ha' Hd'. now apply descends_root in Hd'.
  - intros s [[_ H1] H2]. specialize (H2 1 true ltac:(lia) (desc_right 1) eq_refl).
    unfold entry in H1, H2; simpl in H1, H2. lia.
  - intros zo. reflexivity.
Qed.
Print Assumptions C21_split_range_overflow_refuted.

(** C21. The chosen cutpoint is the u-th available one, u = 0, ..., n-1 being
    drawn uniformly by jax.random.randint. (If there is an available cutpoint the
    range does not overflow.) *)
Theorem C21_choose_split_uniform :
  forall {zo : zoob} {fo : fops} {g : rng fo} bits d var split max_split i k,
  1 <= d -> zlen var = heap_size d -> zlen split = heap_size d ->
  1 <= i < heap_size d -> 0 <= entry var i -> entry max_split (entry var i) < 2 ^ bits ->
  (exists s, available var split max_split i (entry var i) s) ->
  exists lo n u, 0 <= u < n /\ u = r_bits k mod n /\
    (forall s, available var split max_split i (entry var i) s <-> lo <= s < lo + n) /\
    choose_split bits var split max_split i k = lo + u.
Proof. exact @choose_split_exact. Qed.
Print Assumptions C21_choose_split_uniform.

(** A tree of depth 4: the root splits on variable 0 at 5, its right child on
    variable 0 at 8, the left child of the latter on variable 1 at 2. *)
Definition ex_var := [0; 0; 0; 0; 0; 0; 1; 0].
Definition ex_split := [0; 5; 0; 8; 0; 0; 2; 0].

Lemma ex_split_le : forall a, 0 <= entry ex_split a <= 8.
Proof.
  intros a. unfold entry, ex_split.
  destruct (nth_in_or_default (Z.to_nat a) [0; 5; 0; 8; 0; 0; 2; 0] 0) as [H | ->]; [| lia].
  repeat destruct H as [<- | H]; try lia. destruct H.
Qed.

Example C21_example :
  split_range (zo := zclip) 8 ex_var ex_split [10; 3] 6 0 = (6, 8) /\
  split_range (zo := zclip) 8 ex_var ex_split [10; 3] 7 0 = (9, 11) /\
  choose_split (zo := zclip) (g := qgen) 8 ex_var ex_split [10; 3] 6 (KRoot 0) = 1 /\
  available ex_var ex_split [10; 3] 6 0 7.
Proof.
  split; [reflexivity |]. split; [reflexivity |]. split; [reflexivity |].
  apply (split_range_available (zo := zclip) 8 4 ex_var ex_split [10; 3] 6 0 6 8); try reflexivity;
  try (unfold heap_size; simpl; lia).
  intros a Ha _ _. pose proof (ex_split_le a). lia.
Qed.

(** C22. If every predictor has cutpoints, fewer than the largest value of
    their type, and the rules above the node are valid, the chosen variable is the u-th of those with an available cutpoint,
    u being drawn uniformly among their number; [exhausted] is any list of the
    variables without available cutpoints. If there are none, the result is
    out of range, at least p. *)
Theorem C22_choose_variable :
  forall {zo : zoob} {fo : fops} {g : rng fo} bits d var split max_split i k exhausted,
  2 <= d <= 64 -> zlen var = heap_size d -> zlen split = heap_size d ->
  1 <= i < heap_size d -> 1 <= zlen max_split < 2 ^ 64 ->
  1 <= bits ->
  (forall v, 0 <= v < zlen max_split -> 1 <= entry max_split v < 2 ^ bits - 1) ->
  (forall a b, 1 <= a -> descends a b i ->
     0 <= entry var a /\ valid_rule var split max_split a) ->
  (forall v, 0 <= v < zlen max_split ->
     (In v exhausted <-> ~ exists s, available var split max_split i v s)) ->
  let count := allowed_before exhausted (zlen max_split) in
  (0 < count ->
    exists u, 0 <= u < count /\ u = r_bits k mod count /\
      forall v, choose_variable bits var split max_split i k = v <->
                allowed (zlen max_split) exhausted v /\ allowed_before exhausted v = u) /\
  (count = 0 -> zlen max_split <= choose_variable bits var split max_split i k <= d - 2).
Proof. exact @choose_variable_exact. Qed.
Print Assumptions C22_choose_variable.

(** C22. The number of cutpoints can not be the largest value of their type: a
    variable without available cutpoints is chosen, although another one has
    some. (With the default settings of gbart there can be 255 cutpoints with
    an 8-bit type.) *)
Theorem C22_choose_variable_overflow_refuted :
  exists d var split max_split i,
    zlen var = heap_size d /\ zlen split = heap_size d /\ 1 <= i < heap_size d /\
    (forall v, 0 <= v < zlen max_split -> 1 <= entry max_split v < 2 ^ 8) /\
    (forall a b, 1 <= a -> descends a b i ->
       0 <= entry var a /\ valid_rule var split max_split a) /\
    (exists v s, available var split max_split i v s) /\
    exists (fo : fops) (g : rng fo) k, forall (zo : zoob),
      let v := choose_variable 8 var split max_split i k in
      v = 1 /\ forall s, ~ available var split max_split i v s.
Proof.
  exists 3, [0; 1; 0; 0], [0; 255; 0; 0], [1; 255], 3.
  split; [reflexivity |]. split; [reflexivity |]. split; [unfold heap_size; simpl; lia |].
  assert (D3 : forall a b, 1 <= a -> descends a b 3 -> a = 1 /\ b = true).
  { intros a b Ha Hd. change 3 with (2 * 1 + 1) in Hd. apply descends_right in Hd; try lia.
    destruct Hd as [[-> ->] | Hd]; auto. now apply descends_root in Hd. }
  split; [| split; [| split]].
  - intros v Hv. assert (Hc : v = 0 \/ v = 1) by (unfold zlen in Hv; simpl in Hv; lia).
    destruct Hc as [-> | ->]; unfold entry; simpl; lia.
  - intros a b Ha Hd. destruct (D3 a b Ha Hd) as [-> ->].
    split; [unfold entry; simpl; lia |].
    split; [unfold entry; simpl; lia |]. intros a' b' Ha' Hd'. now apply descends_root in Hd'.
  - exists 0, 1. split; [unfold entry; simpl; lia |]. intros a b Ha Hd.
    destruct (D3 a b Ha Hd) as [-> ->]. unfold entry; simpl. lia.
  - exists qops, qgen, (KRoot 0). intros zo. split; [reflexivity |].
    change (choose_variable _ _ _ _ _ _) with 1.
    intros s [[_ H1] H2]. specialize (H2 1 true ltac:(lia) (desc_right 1) eq_refl).
    unfold entry in H1, H2; simpl in H1, H2. lia.
Qed.
Print Assumptions C22_choose_variable_overflow_refuted.

(** C22. The variables of the ancestors, from the root down, padded with p. The
    number p of predictors is not the number of values of an integer type. *)
Theorem C22_ancestor_variables :
  forall {zo : zoob} d var max_split i,
  2 <= d <= 64 -> zlen var = heap_size d -> 1 <= i < heap_size d ->
  1 <= zlen max_split < 2 ^ 64 -> (forall k, In k [8; 16; 32] -> zlen max_split <> 2 ^ k) ->
  (forall a b, 1 <= a -> descends a b i -> 0 <= entry var a < zlen max_split) ->
  zlen (ancestor_variables var max_split i) = d - 2 /\
  (forall v, 0 <= v < zlen max_split ->
     (In v (ancestor_variables var max_split i) <->
      exists a b, 1 <= a /\ descends a b i /\ entry var a = v)).
Proof.
  intros zo d var ms i Hd Hv Hi Hp Hk H.
  assert (Hdt : var_dtype (zlen ms) var i).
  { intros a b Ha Hb. specialize (H a b Ha Hb).
    pose proof (minimal_unsigned_bits_fits (zlen ms - 1) ltac:(lia)). lia. }
  split.
  - now apply (ancestor_variables_zget d).
  - intros v Hvr. apply (ancestor_variables_In d); auto; apply Hk; cbn; auto.
Qed.
Print Assumptions C22_ancestor_variables.

(** C22. With 256 predictors the filler 256 is stored in 8 bits as 0, so
    variable 0 appears among those of the ancestors of the root. *)
Theorem C22_ancestor_variables_256_refuted :
  forall {zo : zoob} max_split, zlen max_split = 2 ^ 8 ->
  In 0 (ancestor_variables [0; 0; 0; 0] max_split 1) /\
  ~ exists a b, 1 <= a /\ descends a b 1 /\ entry [0; 0; 0; 0] a = 0.
Proof.
  intros zo ms Hp. split.
  - unfold ancestor_variables. rewrite Hp. vm_compute. auto.
  - intros (a & b & Ha & Hd & _). now apply descends_root in Hd.
Qed.
Print Assumptions C22_ancestor_variables_256_refuted.

(** C22 without the assumption that every predictor has cutpoints is false:
    a predictor with max_split = 0 can be chosen, although another one has
    available cutpoints. *)
Theorem C22_choose_variable_max_split_0_refuted :
  exists (fo : fops) (g : rng fo) k var split max_split i,
    (exists v s, available var split max_split i v s) /\
    (forall (zo : zoob) s, ~ available var split max_split i
       (choose_variable (zo := zo) 8 var split max_split i k) s).
Proof.
  exists qops, qgen, (KRoot 0), [0; 0], [0; 0], [3; 0], 1. split.
  - exists 0, 1. split; [unfold entry; simpl; lia |].
    intros a b Ha Hd. now apply descends_root in Hd.
  - intros zo s [H _].
    change (choose_variable _ _ _ _ _ _) with 1 in H. unfold entry in H; simpl in H. lia.
Qed.
Print Assumptions C22_choose_variable_max_split_0_refuted.

(** C22. "returns p if there are none" is false: with two exhausted levels on
    the only predictor the result is 2, not p = 1. *)
Theorem C22_choose_variable_p_refuted :
  exists d var split max_split i,
    zlen var = heap_size d /\ zlen split = heap_size d /\ 1 <= i < heap_size d /\
    (forall a b, 1 <= a -> descends a b i ->
       0 <= entry var a /\ valid_rule var split max_split a) /\
    forall (zo : zoob) (fo : fops) (g : rng fo) k,
      choose_variable 8 var split max_split i k <> zlen max_split.
Proof.
  (* the root splits at 2 of 2, its left child at 1, whose right child is 5 *)
  exists 4, [0; 0; 0; 0; 0; 0; 0; 0], [0; 2; 1; 0; 0; 0; 0; 0], [2], 5.
  split; [reflexivity |]. split; [reflexivity |].
  split; [unfold heap_size; simpl; lia |]. split.
  - intros a b Ha Hd.
    assert (Hc : a = 1 \/ a = 2).
    { change 5 with (2 * 2 + 1) in Hd. apply descends_right in Hd; try lia.
      destruct Hd as [[-> _] | Hd]; auto. change 2 with (2 * 1) in Hd.
      apply descends_left in Hd; try lia. destruct Hd as [[-> _] | Hd]; auto.
      now apply descends_root in Hd. }
    destruct Hc as [-> | ->].
    + split; [unfold entry; simpl; lia |]. split; [unfold entry; simpl; lia |].
      intros a b0 Ha0 Hd0 _. now apply descends_root in Hd0.
    + split; [unfold entry; simpl; lia |]. split; [unfold entry; simpl; lia |].
      intros a b0 Ha0 Hd0 _. change 2 with (2 * 1) in Hd0. apply descends_left in Hd0; try lia.
      destruct Hd0 as [[-> ->] | Hd0]; [unfold entry; simpl; lia |].
      now apply descends_root in Hd0.
  - intros zo fo g k. vm_compute. discriminate.
Qed.
Print Assumptions C22_choose_variable_p_refuted.

(** At node 6 of the example tree both variables have available cutpoints; at
    node 7, with max_split of variable 0 equal to 8, only variable 1 has. *)
Example C22_example :
  choose_variable (zo := zclip) (g := qgen) 8 ex_var ex_split [10; 3] 6 (KRoot 0) = 1 /\
  choose_variable (zo := zclip) (g := qgen) 8 ex_var ex_split [8; 3; 1] 7 (KRoot 0) = 2 /\
  allowed_before [0] 3 = 2 /\
  (forall v, 0 <= v < 3 -> (In v [0] <-> ~ exists s, available ex_var ex_split [8; 3; 1] 7 v s)) /\
  (forall a b, 1 <= a -> descends a b 7 ->
     0 <= entry ex_var a /\ valid_rule ex_var ex_split [8; 3; 1] a).
Proof.
  assert (A : forall i v l r, 1 <= i < 8 -> 0 <= v ->
    split_range (zo := zclip) 8 ex_var ex_split [8; 3; 1] i v = (l, r) ->
    forall s, l <= s < r <-> available ex_var ex_split [8; 3; 1] i v s).
  { intros. apply (split_range_available (zo := zclip) 8 4); auto; try (unfold heap_size; lia).
    intros a Ha _ _. pose proof (ex_split_le a). lia. }
  split; [reflexivity |]. split; [reflexivity |]. split; [reflexivity |]. split.
  - intros v Hv. assert (Hc : v = 0 \/ v = 1 \/ v = 2) by lia.
    destruct Hc as [-> | [-> | ->]].
    + simpl. split; [| auto]. intros _ [s Hs].
      apply (A 7 0 9 9 ltac:(lia) ltac:(lia) eq_refl) in Hs. lia.
    + simpl. split; [lia |]. intros N; elim N. exists 1.
      apply (A 7 1 1 4 ltac:(lia) ltac:(lia) eq_refl). lia.
    + simpl. split; [lia |]. intros N; elim N. exists 1.
      apply (A 7 2 1 2 ltac:(lia) ltac:(lia) eq_refl). lia.
  - intros a b Ha Hd.
    assert (Hc : a = 1 \/ a = 3).
    { change 7 with (2 * 3 + 1) in Hd. apply descends_right in Hd; try lia.
      destruct Hd as [[-> _] | Hd]; auto. change 3 with (2 * 1 + 1) in Hd.
      apply descends_right in Hd; try lia. destruct Hd as [[-> _] | Hd]; auto.
      now apply descends_root in Hd. }
    destruct Hc as [-> | ->].
    + split; [unfold entry; simpl; lia |].
      apply (A 1 0 1 9 ltac:(lia) ltac:(lia) eq_refl). unfold entry; simpl; lia.
    + split; [unfold entry; simpl; lia |].
      apply (A 3 0 6 9 ltac:(lia) ltac:(lia) eq_refl). unfold entry; simpl; lia.
Qed.
