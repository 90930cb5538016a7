(** Lemmas on the scatter-add aggregations of mcmcstep.py: counts per leaf and
    sums of residuals per leaf do not depend on the batch size (C23). *)
From Coq Require Import ZArith List Bool Lia.
From Verif Require Import Base LemBase ModelStep.
Import ListNotations.
Open Scope Z_scope.
Ltac Zify.zify_post_hook ::= Z.div_mod_to_equations.

Lemma map_upd : forall A B (h : A -> B) n v l, map h (upd n v l) = upd n (h v) (map h l).
Proof. induction n; destruct l; cbn; auto. f_equal; auto. Qed.

Lemma map_scatter_upd : forall A B (h : A -> B) f f' l i,
  (forall x, In x l -> h (f x) = f' (h x)) ->
  map h (scatter_upd l i f) = scatter_upd (map h l) i f'.
Proof.
  intros A B h f f' l i H. unfold scatter_upd. rewrite zlen_map.
  destruct (in_bounds _ _); auto.
  rewrite nth_error_map. destruct (nth_error l _) eqn:E; cbn; auto.
  rewrite map_upd, H; auto. eapply nth_error_In; eauto.
Qed.

Lemma In_upd : forall A n (v : A) l x, In x (upd n v l) -> x = v \/ In x l.
Proof.
  induction n; destruct l; cbn; intros x Hx; auto.
  - destruct Hx; auto.
  - destruct Hx as [<- | Hx]; auto. apply IHn in Hx. tauto.
Qed.

Lemma In_scatter_upd : forall A (f : A -> A) l i x,
  In x (scatter_upd l i f) -> In x l \/ exists y, In y l /\ x = f y.
Proof.
  intros A f l i x. unfold scatter_upd. destruct (in_bounds _ _); auto.
  destruct (nth_error l _) eqn:E; auto. intros H. apply In_upd in H.
  destruct H as [-> | H]; auto. right. exists a. split; auto. eapply nth_error_In; eauto.
Qed.

Lemma In_full : forall A n (v x : A), In x (full n v) -> x = v.
Proof. intros A n v x H. unfold full in H. now apply repeat_spec in H. Qed.

Lemma map_full : forall A B (h : A -> B) n v, map h (full n v) = full n (h v).
Proof. intros; unfold full. induction (Z.to_nat n); cbn; auto; f_equal; auto. Qed.

Lemma num_batches_pos : forall n bs, 1 <= bs -> 1 <= n -> 1 <= num_batches n bs.
Proof.
  intros n bs Hb Hn. unfold num_batches. destruct (Z.eqb_spec (n mod bs) 0); cbn [negb b2z]; nia.
Qed.

Lemma num_batches_nonneg : forall n bs, 1 <= bs -> 0 <= n -> 0 <= num_batches n bs.
Proof.
  intros n bs Hb Hn. unfold num_batches. pose proof (Z.div_pos n bs).
  destruct (negb _); cbn [b2z]; lia.
Qed.

(** ** commutative addition *)
Section Comm.
  Context {A : Type} (add : A -> A -> A) (zero : A).
  Hypothesis add_comm : forall a b, add a b = add b a.
  Hypothesis add_assoc : forall a b c, add (add a b) c = add a (add b c).
  Hypothesis add_0 : forall a, add zero a = a.

  Lemma fold_add_out : forall l a v, fold_left add l (add a v) = add (fold_left add l a) v.
  Proof.
    induction l; intros; cbn; auto. rewrite <- IHl. f_equal.
    rewrite !add_assoc. f_equal. apply add_comm.
  Qed.

  Lemma fold_add_0 : forall l a, fold_left add l a = add a (fold_left add l zero).
  Proof.
    intros. rewrite <- (add_0 a) at 1. rewrite fold_add_out. apply add_comm.
  Qed.

  Lemma rowsum_upd : forall row n v x a,
    nth_error row n = Some x ->
    fold_left add (upd n (add x v) row) a = add (fold_left add row a) v.
  Proof.
    induction row; intros n v x acc H; destruct n; cbn in *; try discriminate.
    - injection H as ->. rewrite <- fold_add_out. f_equal. now rewrite add_assoc.
    - now apply IHrow.
  Qed.

  Lemma rowsum_scatter : forall row b v, 0 <= b < zlen row ->
    fold_left add (scatter_upd row b (fun x => add x v)) zero = add (fold_left add row zero) v.
  Proof.
    intros row b v Hb. unfold scatter_upd. rewrite norm_index_nonneg by lia.
    rewrite (proj2 (in_bounds_spec _ _)) by lia.
    destruct (nth_error row (Z.to_nat b)) eqn:E.
    - now apply rowsum_upd.
    - apply nth_error_None in E. unfold zlen in Hb. lia.
  Qed.

  Lemma fold_zeros : forall n, fold_left add (full n zero) zero = zero.
  Proof.
    intros. unfold full. induction (Z.to_nat n); cbn; auto. now rewrite add_0.
  Qed.

  (** each row of the batched table sums to the unbatched entry *)
  Lemma batched_rows : forall nb l table,
    (forall row, In row table -> zlen row = nb) ->
    (forall e, In e l -> 0 <= snd (fst e) < nb) ->
    map (fun row => fold_left add row zero)
      (fold_left (fun acc (ibv : Z * Z * A) => let '(i, b, v) := ibv in
         scatter_upd acc i (fun row => scatter_upd row b (fun x => add x v))) l table) =
    fold_left (fun acc (iv : Z * A) => scatter_upd acc (fst iv) (fun x => add x (snd iv)))
      (map (fun e => (fst (fst e), snd e)) l)
      (map (fun row => fold_left add row zero) table).
  Proof.
    intros nb l. induction l as [| [[i b] v] l IH]; intros table Ht Hl; cbn [map fold_left]; auto.
    rewrite IH.
    - cbn [fst snd]. f_equal. apply map_scatter_upd. intros row Hrow.
      apply rowsum_scatter. rewrite Ht by auto. apply (Hl (i, b, v)). now left.
    - intros row Hrow. apply In_scatter_upd in Hrow. destruct Hrow as [H | (r & H & ->)]; auto.
      rewrite zlen_scatter_upd. auto.
    - intros; apply Hl; now right.
  Qed.

  Lemma aggregate_batched_eq : forall values indices size bs,
    1 <= bs -> zlen values = zlen indices ->
    aggregate_batched add zero values indices size bs =
    aggregate_scatter add zero values indices size.
  Proof.
    intros values indices size bs Hbs Hlen. unfold aggregate_batched, aggregate_scatter.
    set (n := zlen indices). set (nb := num_batches n bs).
    rewrite (batched_rows nb).
    - rewrite map_full, fold_zeros. f_equal.
      assert (E : forall (idx bi : list Z) (vs : list A),
        length bi = length idx -> length vs = length idx ->
        map (fun e => (fst (fst e), snd e)) (combine (combine idx bi) vs) = combine idx vs).
      { induction idx as [| x idx IH]; destruct bi, vs; cbn; intros; try discriminate; auto.
        f_equal. apply IH; congruence. }
      apply E.
      + rewrite map_length, length_arange. unfold n, zlen. lia.
      + unfold zlen in Hlen. lia.
    - intros row Hrow. apply In_full in Hrow. subst row. apply zlen_full.
      apply num_batches_nonneg; auto. apply zlen_nonneg.
    - intros [[i b] v] H. cbn [fst snd]. apply in_combine_l in H. apply in_combine_r in H.
      apply in_map_iff in H. destruct H as (j & <- & Hj).
      assert (0 <= j < n).
      { unfold arange in Hj. apply in_map_iff in Hj. destruct Hj as (k & <- & Hk).
        apply in_seq in Hk. lia. }
      apply Z.mod_pos_bound. assert (1 <= nb); [| lia]. apply num_batches_pos; lia.
  Qed.

  (** the sum of the values with a given index *)
  Fixpoint sum_at (indices : list Z) (values : list A) (i : Z) : A :=
    match indices, values with
    | j :: indices, v :: values =>
      if j =? i then add v (sum_at indices values i) else sum_at indices values i
    | _, _ => zero
    end.

  Lemma aggregate_scatter_fold : forall indices values acc i,
    (forall j, In j indices -> 0 <= j) -> 0 <= i < zlen acc ->
    zget zero (fold_left (fun acc (iv : Z * A) => scatter_upd acc (fst iv) (fun x => add x (snd iv)))
      (combine indices values) acc) i = add (zget zero acc i) (sum_at indices values i).
  Proof.
    induction indices as [| j idx IH]; intros values acc i Hj Hi.
    - cbn. rewrite add_comm. now rewrite add_0.
    - destruct values as [| v vs]; cbn [combine fold_left sum_at].
      + rewrite add_comm. now rewrite add_0.
      + rewrite IH; [| intros; apply Hj; now right | now rewrite zlen_scatter_upd].
        cbn [fst snd]. rewrite zget_scatter_upd_gen by (auto; apply Hj; now left).
        destruct (j =? i); auto.
  Qed.

  Lemma aggregate_scatter_sum : forall indices values size i,
    (forall j, In j indices -> 0 <= j) -> 0 <= i < size ->
    zget zero (aggregate_scatter add zero values indices size) i = sum_at indices values i.
  Proof.
    intros indices values size i Hj Hi. unfold aggregate_scatter.
    rewrite aggregate_scatter_fold; auto.
    - rewrite zget_full by auto. apply add_0.
    - rewrite zlen_full; lia.
  Qed.
End Comm.

Lemma zlen_aggregate_scatter : forall A (add : A -> A -> A) zero values indices size,
  0 <= size -> zlen (aggregate_scatter add zero values indices size) = size.
Proof.
  intros A add zero values indices size Hs. unfold aggregate_scatter.
  assert (H : forall l acc, zlen (fold_left (fun acc (iv : Z * A) =>
    scatter_upd acc (fst iv) (fun x => add x (snd iv))) l acc) = zlen acc).
  { induction l; intros; cbn [fold_left]; auto. rewrite IHl. apply zlen_scatter_upd. }
  rewrite H. apply zlen_full; auto.
Qed.

Lemma zlen_aggregate_batched : forall A (add : A -> A -> A) zero values indices size bs,
  0 <= size -> zlen (aggregate_batched add zero values indices size bs) = size.
Proof.
  intros A add zero values indices size bs Hs. unfold aggregate_batched.
  rewrite zlen_map.
  assert (H : forall l acc, zlen (fold_left (fun acc (ibv : Z * Z * A) => let '(i, b, v) := ibv in
         scatter_upd acc i (fun row => scatter_upd row b (fun x => add x v))) l acc) = zlen acc).
  { induction l as [| [[i b] v] l IH]; intros; cbn [fold_left]; auto.
    rewrite IH. apply zlen_scatter_upd. }
  rewrite H. apply zlen_full; auto.
Qed.

(** ** counts in uint32 *)

Lemma add32_wrap : forall a v, add32 (wrap 32 a) v = wrap 32 (a + v).
Proof. intros; unfold add32, wrap. apply Zplus_mod_idemp_l. Qed.

Lemma fold_add32 : forall l a, fold_left add32 (map (wrap 32) l) (wrap 32 a) =
  wrap 32 (fold_left Z.add l a).
Proof.
  induction l as [| x l IH]; intros; cbn [map fold_left]; auto.
  rewrite <- IH. f_equal. unfold add32, wrap. now rewrite <- Zplus_mod.
Qed.

Lemma aggregate_scatter32 : forall values indices size,
  aggregate_scatter add32 0 values indices size =
  map (wrap 32) (aggregate_scatter Z.add 0 values indices size).
Proof.
  intros. unfold aggregate_scatter.
  assert (H : forall l acc,
    fold_left (fun acc (iv : Z * Z) => scatter_upd acc (fst iv) (fun x => add32 x (snd iv)))
      l (map (wrap 32) acc) =
    map (wrap 32) (fold_left (fun acc (iv : Z * Z) =>
      scatter_upd acc (fst iv) (fun x => x + snd iv)) l acc)).
  { induction l as [| x l IH]; intros; cbn [fold_left]; auto.
    rewrite <- IH. f_equal. symmetry. apply map_scatter_upd.
    intros. symmetry. apply add32_wrap. }
  rewrite <- H, map_full. reflexivity.
Qed.

Lemma aggregate_batched32 : forall values indices size bs,
  aggregate_batched add32 0 values indices size bs =
  map (wrap 32) (aggregate_batched Z.add 0 values indices size bs).
Proof.
  intros. unfold aggregate_batched.
  set (nb := num_batches _ _).
  assert (H : forall l acc,
    fold_left (fun acc (ibv : Z * Z * Z) => let '(i, b, v) := ibv in
         scatter_upd acc i (fun row => scatter_upd row b (fun x => add32 x v)))
      l (map (map (wrap 32)) acc) =
    map (map (wrap 32)) (fold_left (fun acc (ibv : Z * Z * Z) => let '(i, b, v) := ibv in
         scatter_upd acc i (fun row => scatter_upd row b (fun x => x + v))) l acc)).
  { induction l as [| [[i b] v] l IH]; intros; cbn [fold_left]; auto.
    rewrite <- IH. f_equal. symmetry. apply map_scatter_upd.
    intros. apply map_scatter_upd. intros. symmetry. apply add32_wrap. }
  specialize (H (combine (combine indices (map (fun i => i mod nb) (arange (zlen indices)))) values)
    (full size (full nb 0))).
  rewrite map_full, map_full in H. change (wrap 32 0) with 0 in H. rewrite H.
  rewrite !map_map. apply map_ext. intros. apply (fold_add32 a 0).
Qed.

(** number of occurrences *)
Definition occ (l : list Z) (i : Z) : Z := Z.of_nat (count_occ Z.eq_dec l i).

Lemma occ_nil : forall i, occ [] i = 0.
Proof. reflexivity. Qed.

Lemma occ_cons : forall x l i, occ (x :: l) i = b2z (x =? i) + occ l i.
Proof.
  intros; unfold occ; cbn [count_occ]. destruct (Z.eq_dec x i), (Z.eqb_spec x i); cbn [b2z]; lia.
Qed.

Lemma occ_nonneg : forall l i, 0 <= occ l i.
Proof. intros; unfold occ; lia. Qed.

Lemma occ_le : forall l i, occ l i <= zlen l.
Proof.
  induction l; intros; [reflexivity |]. rewrite occ_cons, zlen_cons.
  pose proof (IHl i). destruct (_ =? _); cbn [b2z]; lia.
Qed.

Lemma occ_2_le : forall l i j, i <> j -> occ l i + occ l j <= zlen l.
Proof.
  induction l; intros i j H; [rewrite !occ_nil, zlen_nil; lia |]. rewrite !occ_cons, zlen_cons.
  pose proof (IHl i j H). destruct (Z.eqb_spec a i), (Z.eqb_spec a j); cbn [b2z]; lia.
Qed.

Lemma occ_pos : forall l i, 0 < occ l i <-> In i l.
Proof.
  intros; unfold occ. rewrite (count_occ_In Z.eq_dec). lia.
Qed.

Lemma occ_0 : forall l i, ~ In i l -> occ l i = 0.
Proof. intros l i H. rewrite <- occ_pos in H. pose proof (occ_nonneg l i). lia. Qed.

Lemma sum_at_ones : forall l i, sum_at Z.add 0 l (map (fun _ => 1) l) i = occ l i.
Proof.
  induction l; intros; auto. cbn [map sum_at]. rewrite occ_cons, IHl.
  destruct (_ =? _); cbn [b2z]; lia.
Qed.

Section Counts.
  Lemma count_datapoints_scatter : forall indices size bs,
    match bs with Some b => 1 <= b | None => True end ->
    count_datapoints_per_leaf indices size bs =
    map (wrap 32) (aggregate_scatter Z.add 0 (map (fun _ => 1) indices) indices size).
  Proof.
    intros indices size bs Hbs. unfold count_datapoints_per_leaf. destruct bs.
    - rewrite aggregate_batched32. f_equal. apply aggregate_batched_eq; auto; try lia.
      now rewrite zlen_map.
    - apply aggregate_scatter32.
  Qed.

  Lemma zlen_count_datapoints : forall indices size bs, 0 <= size ->
    zlen (count_datapoints_per_leaf indices size bs) = size.
  Proof.
    intros. unfold count_datapoints_per_leaf. destruct bs.
    - now apply zlen_aggregate_batched.
    - now apply zlen_aggregate_scatter.
  Qed.

  Lemma zget_count_datapoints : forall indices size bs i,
    match bs with Some b => 1 <= b | None => True end ->
    (forall j, In j indices -> 0 <= j) -> zlen indices < 2 ^ 32 -> 0 <= i < size ->
    zget 0 (count_datapoints_per_leaf indices size bs) i = occ indices i.
  Proof.
    intros indices size bs i Hbs Hj Hn Hi. rewrite count_datapoints_scatter by auto.
    rewrite (zget_map _ _ _ 0) by (rewrite zlen_aggregate_scatter; lia).
    rewrite aggregate_scatter_sum; auto; try lia.
    rewrite sum_at_ones. apply wrap_small. pose proof (occ_nonneg indices i).
    pose proof (occ_le indices i). lia.
  Qed.
End Counts.
