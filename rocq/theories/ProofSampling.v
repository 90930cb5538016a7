(** Lemmas on the samplers (C18-C20). *)
From Coq Require Import ZArith List Bool Lia Arith Sorting.Permutation Reals Lra.
From Verif Require Import Base LemBase ModelJaxext ModelGrove ModelStep SpecSampling.
Import ListNotations.
Open Scope Z_scope.

(** ** searchsorted and cumsum *)

Lemma ss_right_bounds : forall A (lt : A -> A -> bool) a v,
  0 <= searchsorted_right lt a v <= zlen a.
Proof.
  induction a as [| x a IHa]; intros; simpl searchsorted_right; rewrite ?zlen_nil, ?zlen_cons; [lia |].
  destruct (lt v x); [pose proof (zlen_nonneg _ a); lia |]. specialize (IHa v). lia.
Qed.

Lemma ss_right_before : forall A (lt : A -> A -> bool) d a v j,
  0 <= j < searchsorted_right lt a v -> lt v (zget d a j) = false.
Proof.
  induction a as [| x a IHa]; intros v j H; simpl searchsorted_right in H; [lia |].
  destruct (lt v x) eqn:E; [lia |].
  destruct (Z.eq_dec j 0); [subst; auto |].
  rewrite zget_cons by lia. apply IHa. lia.
Qed.

Lemma ss_right_at : forall A (lt : A -> A -> bool) d a v,
  searchsorted_right lt a v < zlen a ->
  lt v (zget d a (searchsorted_right lt a v)) = true.
Proof.
  induction a as [| x a IHa]; intros v H; simpl searchsorted_right in *; [rewrite zlen_nil in H; lia |].
  rewrite zlen_cons in H.
  destruct (lt v x) eqn:E; auto.
  pose proof (ss_right_bounds _ lt a v).
  rewrite zget_cons by lia. replace (1 + _ - 1) with (searchsorted_right lt a v) by lia.
  apply IHa. lia.
Qed.

Lemma ss_right_all : forall A (lt : A -> A -> bool) a v,
  (forall x, In x a -> lt v x = false) -> searchsorted_right lt a v = zlen a.
Proof.
  induction a as [| x a IHa]; intros v H; simpl searchsorted_right; auto.
  rewrite (H x) by (simpl; auto). rewrite zlen_cons, IHa; auto.
  intros; apply H; simpl; auto.
Qed.

Lemma ss_right_exists : forall A (lt : A -> A -> bool) a v x,
  In x a -> lt v x = true -> searchsorted_right lt a v < zlen a.
Proof.
  induction a as [| x a IHa]; intros v z Hz E; [destruct Hz |].
  simpl searchsorted_right. rewrite zlen_cons.
  pose proof (zlen_nonneg _ a).
  destruct (lt v x) eqn:E'; [lia |].
  destruct Hz as [-> | Hz]; [congruence |].
  specialize (IHa v z Hz E). lia.
Qed.

Lemma zlen_cumsum : forall A (add : A -> A -> A) l acc,
  zlen (cumsum_from add acc l) = zlen l.
Proof. induction l; intros; simpl; auto. rewrite !zlen_cons, IHl; auto. Qed.

Lemma zget_cumsum : forall A (add : A -> A -> A) d l acc i,
  0 <= i < zlen l ->
  zget d (cumsum_from add acc l) i = fold_left add (firstn (S (Z.to_nat i)) l) acc.
Proof.
  induction l; intros acc i Hi; [rewrite zlen_nil in Hi; lia |].
  rewrite zlen_cons in Hi. cbn [cumsum_from]. destruct (Z.eq_dec i 0).
  - subst. reflexivity.
  - rewrite zget_cons by lia. rewrite IHl by lia.
    replace (Z.to_nat i) with (S (Z.to_nat (i - 1))) by lia. reflexivity.
Qed.

(** consecutive entries *)
Lemma zget_cumsum_S : forall A (add : A -> A -> A) d l acc i,
  1 <= i < zlen l ->
  zget d (cumsum_from add acc l) i =
  add (zget d (cumsum_from add acc l) (i - 1)) (zget d l i).
Proof.
  induction l; intros acc i Hi; [rewrite zlen_nil in Hi; lia |].
  rewrite zlen_cons in Hi. cbn [cumsum_from].
  rewrite !(zget_cons _ _ _ _ i) by lia.
  destruct (Z.eq_dec i 1).
  - subst. destruct l; [rewrite zlen_nil in Hi; lia |]. reflexivity.
  - rewrite zget_cons by lia. apply IHl. lia.
Qed.

Lemma gather_last : forall A (m : oob A) d l,
  1 <= zlen l -> gather m l (-1) = zget d l (zlen l - 1).
Proof.
  intros; unfold gather, norm_index, zget. change (-1 <? 0) with true. cbv iota.
  rewrite (proj2 (in_bounds_spec _ _)) by lia.
  replace (-1 + zlen l) with (zlen l - 1) by lia.
  apply nth_indep. unfold zlen in *. lia.
Qed.

(** ** randint *)

Lemma randint_bounds : forall {fo : fops} {g : rng fo} k lo hi,
  lo < hi -> lo <= randint k lo hi < hi.
Proof.
  intros; unfold randint. destruct (Z.leb_spec hi lo); [lia |].
  pose proof (Z.mod_pos_bound (r_bits k) (hi - lo)). lia.
Qed.

Lemma randint_empty : forall {fo : fops} {g : rng fo} k lo hi,
  hi <= lo -> randint k lo hi = lo.
Proof. intros; unfold randint. destruct (Z.leb_spec hi lo); lia. Qed.

(** ** randint_masked (C19) *)

Lemma trues_before_cons : forall b mask i, 0 < i ->
  trues_before (b :: mask) i = b2z b + trues_before mask (i - 1).
Proof.
  intros; unfold trues_before. replace (Z.to_nat i) with (S (Z.to_nat (i - 1))) by lia.
  cbn [firstn count_occ]. destruct b; cbn [bool_dec b2z]; [| simpl; lia].
  destruct (bool_dec true true); [lia | congruence].
Qed.

Lemma trues_before_nonneg : forall mask i, 0 <= trues_before mask i.
Proof. intros; unfold trues_before; lia. Qed.

Lemma masked_ss : forall mask acc u i,
  acc <= u ->
  (is_true_at mask i /\ acc + trues_before mask i = u ->
   searchsorted_right Z.ltb (cumsum_from Z.add acc (map b2z mask)) u = i) /\
  (searchsorted_right Z.ltb (cumsum_from Z.add acc (map b2z mask)) u = i -> i < zlen mask ->
   is_true_at mask i /\ acc + trues_before mask i = u).
Proof.
  induction mask as [| b mask IH]; intros acc u i Hu.
  - split.
    + intros [[H1 H2] _]. destruct (Z.to_nat i); discriminate.
    + simpl. intros <-. rewrite zlen_nil. lia.
  - cbn [map cumsum_from searchsorted_right].
    assert (T0 : trues_before (b :: mask) 0 = 0) by reflexivity.
    rewrite zlen_cons.
    destruct (Z.ltb_spec u (acc + b2z b)) as [L | L].
    + assert (Hb : b = true /\ u = acc) by (destruct b; simpl in L; split; auto; lia).
      destruct Hb as [-> ->]. split.
      * intros [[H1 H2] H3]. destruct (Z.eq_dec i 0); auto.
        rewrite trues_before_cons in H3 by lia.
        pose proof (trues_before_nonneg mask (i - 1)). cbn [b2z] in H3. lia.
      * intros <- _. split; [split; [lia | reflexivity] | rewrite T0; lia].
    + specialize (IH (acc + b2z b) u (i - 1) L). destruct IH as [IH1 IH2].
      pose proof (ss_right_bounds _ Z.ltb (cumsum_from Z.add (acc + b2z b) (map b2z mask)) u).
      split.
      * intros [[H1 H2] H3]. destruct (Z.eq_dec i 0).
        { subst i. rewrite T0 in H3. simpl in H2. injection H2 as ->. cbn [b2z] in L. lia. }
        rewrite trues_before_cons in H3 by lia. rewrite IH1; [lia |].
        split; [split; [lia |] | lia].
        replace (Z.to_nat i) with (S (Z.to_nat (i - 1))) in H2 by lia. exact H2.
      * intros E Hi. destruct IH2 as [[H1 H2] H3]; [lia | lia |].
        split; [split; [lia |] |].
        -- replace (Z.to_nat i) with (S (Z.to_nat (i - 1))) by lia. exact H2.
        -- rewrite trues_before_cons by lia. lia.
Qed.

Lemma count_trues_before : forall mask, count_nonzero mask = trues_before mask (zlen mask).
Proof.
  induction mask; auto. rewrite count_nonzero_cons, zlen_cons.
  pose proof (zlen_nonneg _ mask). rewrite trues_before_cons by lia.
  rewrite IHmask. do 2 f_equal. lia.
Qed.

Lemma cumsum_last_count : forall d mask acc, mask <> [] ->
  zget d (cumsum_from Z.add acc (map b2z mask)) (zlen mask - 1) = acc + count_nonzero mask.
Proof.
  induction mask; intros acc H; [congruence |].
  rewrite zlen_cons, count_nonzero_cons. cbn [map cumsum_from].
  destruct mask as [| b mask].
  - change (zlen (@nil bool)) with 0. change (count_nonzero []) with 0.
    change (1 + 0 - 1) with 0. rewrite zget_cons0. lia.
  - pose proof (zlen_nonneg _ mask). rewrite zget_cons by (rewrite zlen_cons; lia).
    replace (1 + zlen (b :: mask) - 1 - 1) with (zlen (b :: mask) - 1) by lia.
    rewrite IHmask by discriminate. lia.
Qed.

Section Masked.
  Context {fo : fops} {zo : zoob} {g : rng fo}.

  Lemma randint_masked_none : forall k mask,
    mask <> [] -> count_nonzero mask = 0 -> randint_masked k mask = zlen mask.
  Proof.
    intros k mask Hm H0. unfold randint_masked.
    assert (Hl : 1 <= zlen mask) by (destruct mask; [congruence | rewrite zlen_cons; pose proof (zlen_nonneg _ mask); lia]).
    rewrite (gather_last _ _ 0) by (rewrite zlen_cumsum, zlen_map; lia).
    rewrite zlen_cumsum, zlen_map, cumsum_last_count by auto.
    rewrite H0, randint_empty by lia.
    rewrite ss_right_all.
    - rewrite zlen_cumsum, zlen_map. auto.
    - clear Hl Hm. intros x Hx. apply Z.ltb_ge.
      assert (Hf : forall b, In b mask -> b = false) by (now apply count_nonzero_0).
      assert (E : forall acc, acc = 0 -> In x (cumsum_from Z.add acc (map b2z mask)) -> x = 0).
      { clear Hx H0. induction mask; simpl; intros acc Ha; [tauto |].
        rewrite (Hf a) by (simpl; auto). simpl. intros [<- | Hx]; [lia |].
        apply IHmask in Hx; auto; [| lia]. intros; apply Hf; simpl; auto. }
      rewrite (E 0); auto; lia.
  Qed.

  Lemma randint_masked_spec : forall k mask,
    0 < count_nonzero mask ->
    exists u, 0 <= u < count_nonzero mask /\
      u = r_bits k mod count_nonzero mask /\
      forall i, randint_masked k mask = i <-> is_true_at mask i /\ trues_before mask i = u.
  Proof.
    intros k mask Hc.
    assert (Hm : mask <> []) by (intros ->; discriminate Hc).
    assert (Hl : 1 <= zlen mask) by (pose proof (count_nonzero_le mask); lia).
    exists (r_bits k mod count_nonzero mask).
    pose proof (Z.mod_pos_bound (r_bits k) (count_nonzero mask) Hc) as Hu.
    split; auto. split; auto. intros i. unfold randint_masked.
    rewrite (gather_last _ _ 0) by (rewrite zlen_cumsum, zlen_map; lia).
    rewrite zlen_cumsum, zlen_map, cumsum_last_count by auto. rewrite Z.add_0_l.
    unfold randint. destruct (Z.leb_spec (count_nonzero mask) 0); [lia |].
    rewrite Z.sub_0_r, Z.add_0_l. set (u := r_bits k mod count_nonzero mask) in *.
    pose proof (masked_ss mask 0 u i ltac:(lia)) as [M1 M2].
    split.
    - intros E. rewrite <- (Z.add_0_l (trues_before mask i)). apply M2; auto. subst i.
      replace (zlen mask) with (zlen (cumsum_from Z.add 0 (map b2z mask)))
        by (rewrite zlen_cumsum, zlen_map; auto).
      apply ss_right_exists with (x := count_nonzero mask); [| now apply Z.ltb_lt].
      rewrite <- (Z.add_0_l (count_nonzero mask)), <- (cumsum_last_count 0) by auto.
      apply zget_In. rewrite zlen_cumsum, zlen_map. lia.
    - intros [H1 H2]. apply M1. split; auto.
  Qed.
End Masked.

(** ** randint_exclude (C20) *)

Definition ex_loop (E : list Z) (u : Z) : Z :=
  fold_left (fun u i => if i <=? u then u + 1 else u) E u.

Fixpoint sinc (l : list Z) : Prop :=   (* strictly increasing *)
  match l with
  | x :: ((y :: _) as l') => x < y /\ sinc l'
  | _ => True
  end.

Lemma sinc_tail : forall x l, sinc (x :: l) -> sinc l.
Proof. destruct l; simpl; tauto. Qed.

Lemma sinc_lt : forall l x y, sinc (x :: l) -> In y l -> x < y.
Proof.
  induction l; intros x y H Hy; [destruct Hy |].
  destruct H as [H1 H2]. destruct Hy as [<- | Hy]; auto.
  apply Z.lt_trans with a; auto.
Qed.

Lemma sinc_NoDup : forall l, sinc l -> NoDup l.
Proof.
  induction l; intros H; constructor.
  - intros Hi. apply (sinc_lt _ _ _ H) in Hi. lia.
  - apply IHl. eapply sinc_tail; eauto.
Qed.

Definition num_lt (E : list Z) (x : Z) : Z := zlen (filter (fun e => e <? x) E).

Lemma num_lt_cons : forall e E x, num_lt (e :: E) x = b2z (e <? x) + num_lt E x.
Proof. intros; unfold num_lt; simpl. destruct (e <? x); rewrite ?zlen_cons; auto. Qed.

Lemma num_lt_nonneg : forall E x, 0 <= num_lt E x.
Proof. intros; apply zlen_nonneg. Qed.

Lemma ex_loop_skip : forall E u, (forall e, In e E -> u < e) -> ex_loop E u = u.
Proof.
  induction E; intros u H; auto. unfold ex_loop; simpl.
  rewrite (proj2 (Z.leb_gt _ _)) by (apply H; simpl; auto).
  apply IHE. intros; apply H; simpl; auto.
Qed.

Lemma num_lt_0 : forall E x, (forall e, In e E -> x <= e) -> num_lt E x = 0.
Proof.
  induction E; intros x H; auto. rewrite num_lt_cons, IHE by (intros; apply H; simpl; auto).
  rewrite (proj2 (Z.ltb_ge _ _)) by (apply H; simpl; auto). reflexivity.
Qed.

Lemma ex_loop_ge : forall E u, u <= ex_loop E u <= u + zlen E.
Proof.
  induction E; intros u; unfold ex_loop; simpl; rewrite ?zlen_nil, ?zlen_cons; [lia |].
  fold (ex_loop E (if a <=? u then u + 1 else u)).
  destruct (a <=? u); [specialize (IHE (u + 1)) | specialize (IHE u)]; lia.
Qed.

Lemma ex_loop_spec : forall E u,
  sinc E -> ~ In (ex_loop E u) E /\ ex_loop E u - num_lt E (ex_loop E u) = u.
Proof.
  induction E as [| e E IH]; intros u H.
  - simpl. split; auto. unfold num_lt; simpl; rewrite zlen_nil; lia.
  - change (ex_loop (e :: E) u) with (ex_loop E (if e <=? u then u + 1 else u)).
    destruct (Z.leb_spec e u) as [L | L].
    + destruct (IH (u + 1) (sinc_tail _ _ H)) as [H1 H2].
      pose proof (ex_loop_ge E (u + 1)). set (r := ex_loop E (u + 1)) in *. split.
      * intros [Hi | Hi]; auto. lia.
      * rewrite num_lt_cons. rewrite (proj2 (Z.ltb_lt _ _)) by lia. simpl b2z. lia.
    + assert (Hall : forall x, In x (e :: E) -> u < x).
      { intros x [<- | Hx]; auto. apply (sinc_lt _ _ _ H) in Hx. lia. }
      rewrite ex_loop_skip by (intros; apply Hall; simpl; auto). split.
      * intros Hi. apply Hall in Hi. lia.
      * rewrite num_lt_0 by (intros x Hx; apply Hall in Hx; lia). lia.
Qed.

Lemma num_lt_mono1 : forall E x, sinc E -> num_lt E (x + 1) <= num_lt E x + 1.
Proof.
  induction E; intros x H; [unfold num_lt; simpl; rewrite zlen_nil; lia |].
  rewrite !num_lt_cons. pose proof (IHE x (sinc_tail _ _ H)).
  destruct (Z.ltb_spec a (x + 1)), (Z.ltb_spec a x); simpl b2z; try lia.
  rewrite (num_lt_0 E (x + 1)); [pose proof (num_lt_nonneg E x); lia |].
  intros e He. apply (sinc_lt _ _ _ H) in He. lia.
Qed.

Lemma num_lt_mono : forall E, sinc E ->
  forall n x, x - num_lt E x <= x + Z.of_nat n - num_lt E (x + Z.of_nat n).
Proof.
  intros E H; induction n; intros x.
  - rewrite Z.add_0_r. lia.
  - specialize (IHn x). pose proof (num_lt_mono1 E (x + Z.of_nat n) H).
    replace (x + Z.of_nat (S n)) with (x + Z.of_nat n + 1) by lia. lia.
Qed.

(** sorted and deduplicated *)
Lemma insert_sorted_In : forall A (lt : A -> A -> bool) x y l,
  In y (insert_sorted lt x l) <-> y = x \/ In y l.
Proof.
  induction l; simpl; [intuition auto |].
  destruct (lt a x); simpl; rewrite ?IHl; intuition auto.
Qed.

Lemma jnp_sort_In : forall A (lt : A -> A -> bool) y l,
  In y (jnp_sort lt l) <-> In y l.
Proof.
  induction l; simpl; [tauto |]. unfold jnp_sort in *; simpl.
  rewrite insert_sorted_In, IHl. intuition auto.
Qed.

Fixpoint ninc (l : list Z) : Prop :=   (* nondecreasing *)
  match l with
  | x :: ((y :: _) as l') => x <= y /\ ninc l'
  | _ => True
  end.

Lemma insert_sorted_ninc : forall x l, ninc l -> ninc (insert_sorted Z.ltb x l).
Proof.
  induction l; intros H; simpl; auto.
  destruct (Z.ltb_spec a x).
  - destruct l as [| b l].
    + simpl. split; auto. lia.
    + destruct H as [H1 H2]. specialize (IHl H2). simpl in *.
      destruct (b <? x); simpl in *; split; auto; lia.
  - simpl. split; auto.
Qed.

Lemma jnp_sort_ninc : forall l, ninc (jnp_sort Z.ltb l).
Proof. induction l; simpl; auto. unfold jnp_sort in *. simpl. now apply insert_sorted_ninc. Qed.

Lemma dedup_In : forall l y, In y (dedup_adjacent l) <-> In y l.
Proof.
  induction l as [| x l IH]; [tauto |]. destruct l as [| z l]; [tauto |].
  intros y. change (dedup_adjacent (x :: z :: l)) with
    (if x =? z then dedup_adjacent (z :: l) else x :: dedup_adjacent (z :: l)).
  destruct (Z.eqb_spec x z).
  - rewrite IH. subst. simpl. tauto.
  - cbn [In]. rewrite (IH y). simpl. tauto.
Qed.

Lemma dedup_head : forall x l, exists l', dedup_adjacent (x :: l) = x :: l'.
Proof.
  intros x l; revert x. induction l as [| z l IH]; intros x; [exists []; reflexivity |].
  change (dedup_adjacent (x :: z :: l)) with
    (if x =? z then dedup_adjacent (z :: l) else x :: dedup_adjacent (z :: l)).
  destruct (Z.eqb_spec x z); [subst; apply IH | eauto].
Qed.

Lemma dedup_sinc : forall l, ninc l -> sinc (dedup_adjacent l).
Proof.
  induction l as [| x l IH]; intros H; [exact I |]. destruct l as [| z l]; [exact I |].
  destruct H as [H1 H2]. specialize (IH H2).
  change (dedup_adjacent (x :: z :: l)) with
    (if x =? z then dedup_adjacent (z :: l) else x :: dedup_adjacent (z :: l)).
  destruct (Z.eqb_spec x z); auto.
  destruct (dedup_head z l) as (l' & E). rewrite E in *.
  split; [lia | exact IH].
Qed.

Lemma dedup_length : forall l, (length (dedup_adjacent l) <= length l)%nat.
Proof.
  induction l as [| x l IH]; auto. destruct l as [| z l]; auto.
  change (dedup_adjacent (x :: z :: l)) with
    (if x =? z then dedup_adjacent (z :: l) else x :: dedup_adjacent (z :: l)).
  destruct (x =? z); simpl length in *; lia.
Qed.

Lemma insert_sorted_length : forall A (lt : A -> A -> bool) x l,
  length (insert_sorted lt x l) = S (length l).
Proof. induction l; simpl; auto. destruct (lt a x); simpl; auto. Qed.

Lemma jnp_sort_length : forall A (lt : A -> A -> bool) l,
  length (jnp_sort lt l) = length l.
Proof.
  induction l; simpl; auto. unfold jnp_sort in *; simpl.
  rewrite insert_sorted_length; auto.
Qed.

(** the distinct values of [exclude] *)
Definition distinct (l : list Z) : list Z := dedup_adjacent (jnp_sort Z.ltb l).

Lemma distinct_In : forall l y, In y (distinct l) <-> In y l.
Proof. intros; unfold distinct; rewrite dedup_In. apply jnp_sort_In. Qed.

Lemma distinct_sinc : forall l, sinc (distinct l).
Proof. intros; apply dedup_sinc, jnp_sort_ninc. Qed.

Lemma jnp_unique_length : forall l v, length (jnp_unique l v) = length l.
Proof.
  intros; unfold jnp_unique. rewrite app_length, repeat_length.
  pose proof (dedup_length (jnp_sort Z.ltb l)) as H. rewrite jnp_sort_length in H. lia.
Qed.

Lemma ex_loop_app : forall E E' u, ex_loop (E ++ E') u = ex_loop E' (ex_loop E u).
Proof. intros; unfold ex_loop; apply fold_left_app. Qed.

(** the values allowed before [a], counted in two ways *)
Lemma allowed_before_num_lt : forall exclude a,
  (forall e, In e exclude -> 0 <= e) -> 0 <= a ->
  allowed_before exclude a = a - num_lt (distinct exclude) a.
Proof.
  intros exclude a Hpos Ha. unfold allowed_before, num_lt.
  set (f := fun b : nat => if in_dec Z.eq_dec (Z.of_nat b) exclude then false else true).
  assert (H1 : (length (filter f (seq 0 (Z.to_nat a))) +
            length (filter (fun b => negb (f b)) (seq 0 (Z.to_nat a))) = Z.to_nat a)%nat).
  { rewrite <- (seq_length (Z.to_nat a) 0) at 3.
    generalize (seq 0 (Z.to_nat a)). induction l; simpl; auto.
    destruct (f a0); simpl; lia. }
  assert (H2 : length (filter (fun b => negb (f b)) (seq 0 (Z.to_nat a))) =
               length (filter (fun e => e <? a) (distinct exclude))).
  { rewrite <- (map_length Z.of_nat). apply Permutation_length.
    apply NoDup_Permutation.
    - apply FinFun.Injective_map_NoDup; [intros x y; apply Nat2Z.inj |].
      apply NoDup_filter, seq_NoDup.
    - apply NoDup_filter, sinc_NoDup, distinct_sinc.
    - intros x. rewrite in_map_iff, filter_In, distinct_In, Z.ltb_lt. split.
      + intros (b & <- & Hb). apply filter_In in Hb. destruct Hb as [Hb Hf].
        apply in_seq in Hb. unfold f in Hf.
        destruct (in_dec Z.eq_dec (Z.of_nat b) exclude); [split; auto; lia | discriminate].
      + intros [Hx Hlt]. pose proof (Hpos _ Hx). exists (Z.to_nat x).
        split; [lia |]. apply filter_In. split; [apply in_seq; lia |].
        unfold f. rewrite Z2Nat.id by lia.
        destruct (in_dec Z.eq_dec x exclude); [reflexivity | contradiction]. }
  unfold zlen. lia.
Qed.

Lemma count_lt_unique : forall exclude sup,
  count_nonzero (map (fun i => i <? sup) (jnp_unique exclude sup)) =
  num_lt (distinct exclude) sup.
Proof.
  intros; unfold jnp_unique, num_lt. fold (distinct exclude).
  rewrite map_app, count_nonzero_app.
  replace (count_nonzero (map (fun i => i <? sup) (repeat sup _))) with 0.
  - rewrite Z.add_0_r. unfold count_nonzero. generalize (distinct exclude).
    induction l; simpl; auto. destruct (a <? sup); rewrite ?zlen_cons; auto.
    now rewrite IHl.
  - symmetry. apply count_nonzero_0. intros b Hb. apply in_map_iff in Hb.
    destruct Hb as (x & <- & Hx). apply repeat_spec in Hx. subst.
    apply Z.ltb_irrefl.
Qed.

Lemma allowed_before_mono : forall exclude a n,
  (forall e, In e exclude -> 0 <= e) -> 0 <= a ->
  allowed_before exclude a <= allowed_before exclude (a + Z.of_nat n).
Proof.
  intros. rewrite !allowed_before_num_lt by (auto; lia).
  apply num_lt_mono, distinct_sinc.
Qed.

Lemma allowed_before_nonneg : forall exclude a, 0 <= allowed_before exclude a.
Proof. intros; unfold allowed_before; lia. Qed.

Lemma allowed_before_S : forall exclude a, 0 <= a ->
  allowed_before exclude (a + 1) =
  allowed_before exclude a + if in_dec Z.eq_dec a exclude then 0 else 1.
Proof.
  intros; unfold allowed_before.
  replace (Z.to_nat (a + 1)) with (Z.to_nat a + 1)%nat by lia.
  rewrite seq_app, filter_app, app_length. simpl.
  rewrite Z2Nat.id by lia. destruct (in_dec Z.eq_dec a exclude); simpl; lia.
Qed.

Lemma allowed_rank_inj : forall sup exclude a b,
  (forall e, In e exclude -> 0 <= e) ->
  allowed sup exclude a -> allowed sup exclude b ->
  allowed_before exclude a = allowed_before exclude b -> a = b.
Proof.
  assert (H : forall sup exclude a b, (forall e, In e exclude -> 0 <= e) ->
    allowed sup exclude a -> a < b ->
    allowed_before exclude a < allowed_before exclude b).
  { intros sup exclude a b Hpos [H1 H2] Hab.
    pose proof (allowed_before_S exclude a ltac:(lia)) as E.
    destruct (in_dec Z.eq_dec a exclude); [contradiction |].
    pose proof (allowed_before_mono exclude (a + 1) (Z.to_nat (b - a - 1)) Hpos ltac:(lia)) as M.
    replace (a + 1 + Z.of_nat (Z.to_nat (b - a - 1))) with b in M by lia. lia. }
  intros sup exclude a b Hpos Ha Hb E.
  destruct (Z.lt_trichotomy a b) as [L | [L | L]]; auto.
  - pose proof (H sup exclude a b Hpos Ha L). lia.
  - pose proof (H sup exclude b a Hpos Hb L). lia.
Qed.

Section Exclude.
  Context {fo : fops} {g : rng fo}.

  Lemma randint_exclude_unfold : forall k sup exclude,
    randint_exclude k sup exclude =
    ex_loop (repeat sup (length exclude - length (distinct exclude)))
      (ex_loop (distinct exclude) (randint k 0 (sup - num_lt (distinct exclude) sup))).
  Proof.
    intros; unfold randint_exclude. rewrite count_lt_unique.
    rewrite <- ex_loop_app. reflexivity.
  Qed.

  Lemma randint_exclude_spec : forall k sup exclude,
    0 <= sup -> (forall e, In e exclude -> 0 <= e) ->
    let count := allowed_before exclude sup in
    0 < count ->
    exists u, 0 <= u < count /\ u = r_bits k mod count /\
      forall a, randint_exclude k sup exclude = a <->
                allowed sup exclude a /\ allowed_before exclude a = u.
  Proof.
    intros k sup exclude Hsup Hpos count Hc.
    exists (r_bits k mod count). pose proof (Z.mod_pos_bound (r_bits k) count Hc) as Hu.
    split; auto. split; auto.
    set (u := r_bits k mod count) in *.
    assert (Eu : randint k 0 (sup - num_lt (distinct exclude) sup) = u).
    { rewrite <- allowed_before_num_lt by (auto; lia). fold count.
      unfold randint. destruct (Z.leb_spec count 0); [lia |].
      unfold u. now rewrite Z.sub_0_r, Z.add_0_l. }
    assert (R : allowed sup exclude (randint_exclude k sup exclude) /\
                allowed_before exclude (randint_exclude k sup exclude) = u).
    { rewrite randint_exclude_unfold, Eu.
      destruct (ex_loop_spec (distinct exclude) u (distinct_sinc _)) as [H1 H2].
      pose proof (ex_loop_ge (distinct exclude) u) as Hge.
      set (r := ex_loop (distinct exclude) u) in *.
      assert (Hr : r < sup).
      { destruct (Z.lt_ge_cases r sup); auto.
        pose proof (num_lt_mono _ (distinct_sinc exclude) (Z.to_nat (r - sup)) sup) as M.
        replace (sup + Z.of_nat (Z.to_nat (r - sup))) with r in M by lia.
        unfold count in *. rewrite allowed_before_num_lt in Hu by (auto; lia). lia. }
      rewrite ex_loop_skip by (intros e He; apply repeat_spec in He; lia).
      split.
      - split; [lia |]. now rewrite <- distinct_In.
      - rewrite allowed_before_num_lt by (auto; lia). lia. }
    intros a; split.
    - intros <-; exact R.
    - intros [Ha Hb]. destruct R as [R1 R2].
      eapply allowed_rank_inj; eauto. congruence.
  Qed.

  (** if everything is excluded *)
  Lemma randint_exclude_full : forall k sup exclude,
    0 <= sup -> (forall e, In e exclude -> 0 <= e) ->
    allowed_before exclude sup = 0 ->
    sup <= randint_exclude k sup exclude <= zlen exclude.
  Proof.
    intros k sup exclude Hsup Hpos Hc.
    rewrite randint_exclude_unfold, <- allowed_before_num_lt, Hc by (auto; lia).
    rewrite randint_empty by lia.
    destruct (ex_loop_spec (distinct exclude) 0 (distinct_sinc _)) as [H1 H2].
    pose proof (ex_loop_ge (distinct exclude) 0) as G1.
    set (r := ex_loop (distinct exclude) 0) in *.
    pose proof (ex_loop_ge (repeat sup (length exclude - length (distinct exclude))) r) as G2.
    rewrite zlen_repeat in G2.
    pose proof (dedup_length (jnp_sort Z.ltb exclude)) as Hd.
    rewrite jnp_sort_length in Hd. fold (distinct exclude) in Hd.
    unfold zlen in *. split; [| lia].
    destruct (Z.lt_ge_cases r sup); [| lia]. exfalso.
    assert (Ha : allowed_before exclude r = 0)
      by (rewrite allowed_before_num_lt by (auto; lia); lia).
    pose proof (allowed_before_S exclude r ltac:(lia)) as E.
    destruct (in_dec Z.eq_dec r exclude) as [Hi | Hi].
    - apply H1. now rewrite distinct_In.
    - pose proof (allowed_before_mono exclude (r + 1) (Z.to_nat (sup - r - 1)) Hpos ltac:(lia)) as M.
      replace (r + 1 + Z.of_nat (Z.to_nat (sup - r - 1))) with sup in M by lia. lia.
  Qed.

  Lemma allowed_before_pos : forall sup exclude a,
    (forall e, In e exclude -> 0 <= e) ->
    allowed sup exclude a -> 0 < allowed_before exclude sup.
  Proof.
    intros sup exclude a Hpos [H1 H2].
    pose proof (allowed_before_S exclude a ltac:(lia)) as E.
    destruct (in_dec Z.eq_dec a exclude) as [Hi | Hi]; [contradiction |].
    pose proof (allowed_before_nonneg exclude a).
    pose proof (allowed_before_mono exclude (a + 1) (Z.to_nat (sup - a - 1)) Hpos ltac:(lia)) as M.
    replace (a + 1 + Z.of_nat (Z.to_nat (sup - a - 1))) with sup in M by lia. lia.
  Qed.

  Lemma allowed_before_zero : forall sup exclude,
    (forall e, In e exclude -> 0 <= e) -> 0 <= sup ->
    (allowed_before exclude sup = 0 <-> forall a, 0 <= a < sup -> In a exclude).
  Proof.
    intros sup exclude Hpos Hs. split.
    - intros E a Ha. destruct (in_dec Z.eq_dec a exclude); auto.
      pose proof (allowed_before_pos sup exclude a Hpos (conj Ha n)). lia.
    - intros H. unfold allowed_before.
      replace (filter _ _) with (@nil nat); auto. symmetry.
      assert (G : forall l, (forall b, In b l -> (b < Z.to_nat sup)%nat) ->
        filter (fun b => if in_dec Z.eq_dec (Z.of_nat b) exclude then false else true) l = []).
      { induction l; intros Hl; simpl; auto.
        destruct (in_dec Z.eq_dec (Z.of_nat a) exclude).
        - apply IHl. intros; apply Hl; simpl; auto.
        - elim n. apply H. specialize (Hl a ltac:(simpl; auto)). lia. }
      apply G. intros b Hb. apply in_seq in Hb. lia.
  Qed.
End Exclude.
