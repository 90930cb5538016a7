(** Lemmas on the array primitives. *)
From Coq Require Import ZArith List Bool Lia Arith.
From Verif Require Import Base ModelJaxext.
Import ListNotations.
Open Scope Z_scope.
Global Arguments Z.add : simpl never.
Global Arguments Z.sub : simpl never.
Global Arguments Z.mul : simpl never.
Global Arguments Z.pow : simpl never.
Global Arguments Z.of_nat : simpl never.
Global Arguments Z.to_nat : simpl never.
Global Arguments Z.max : simpl never.
Global Arguments Z.min : simpl never.
Global Arguments Z.div : simpl never.
Global Arguments Z.modulo : simpl never.

(** entry [i] of an array, [d] outside *)
Definition zget {A} (d : A) (l : list A) (i : Z) : A := nth (Z.to_nat i) l d.

Lemma zlen_nonneg : forall A (l : list A), 0 <= zlen l.
Proof. intros; unfold zlen; lia. Qed.

Lemma zlen_nil : forall A, zlen (@nil A) = 0.
Proof. reflexivity. Qed.

Lemma zlen_cons : forall A (x : A) l, zlen (x :: l) = 1 + zlen l.
Proof. intros; unfold zlen; simpl length; lia. Qed.

Lemma zlen_app : forall A (l l' : list A), zlen (l ++ l') = zlen l + zlen l'.
Proof. intros; unfold zlen; rewrite app_length; lia. Qed.

Lemma zlen_map : forall A B (f : A -> B) l, zlen (map f l) = zlen l.
Proof. intros; unfold zlen; now rewrite map_length. Qed.

Lemma zlen_repeat : forall A (x : A) n, zlen (repeat x n) = Z.of_nat n.
Proof. intros; unfold zlen; now rewrite repeat_length. Qed.

Lemma zlen_full : forall A (x : A) n, 0 <= n -> zlen (full n x) = n.
Proof. intros; unfold full; rewrite zlen_repeat; lia. Qed.

Lemma length_upd : forall A n (v : A) l, length (upd n v l) = length l.
Proof. induction n; destruct l; simpl; auto. Qed.

Lemma length_scatter_set : forall A (l : list A) i v,
  length (scatter_set l i v) = length l.
Proof. intros; unfold scatter_set; destruct (in_bounds _ _); auto using length_upd. Qed.

Lemma zlen_scatter_set : forall A (l : list A) i v, zlen (scatter_set l i v) = zlen l.
Proof. intros; unfold zlen; now rewrite length_scatter_set. Qed.

Lemma length_scatter_upd : forall A (l : list A) i f,
  length (scatter_upd l i f) = length l.
Proof.
  intros; unfold scatter_upd; destruct (in_bounds _ _); auto.
  destruct (nth_error _ _); auto using length_upd.
Qed.

Lemma zlen_scatter_upd : forall A (l : list A) i f, zlen (scatter_upd l i f) = zlen l.
Proof. intros; unfold zlen; now rewrite length_scatter_upd. Qed.

Lemma length_map2 : forall A B C (f : A -> B -> C) a b,
  length (map2 f a b) = Nat.min (length a) (length b).
Proof. induction a; destruct b; simpl; auto. Qed.

Lemma zlen_map2 : forall A B C (f : A -> B -> C) a b,
  zlen (map2 f a b) = Z.min (zlen a) (zlen b).
Proof. intros; unfold zlen; rewrite length_map2; lia. Qed.

Lemma length_arange : forall n, length (arange n) = Z.to_nat n.
Proof. intros; unfold arange; now rewrite map_length, seq_length. Qed.

Lemma zlen_arange : forall n, 0 <= n -> zlen (arange n) = n.
Proof. intros; unfold zlen; rewrite length_arange; lia. Qed.

Lemma in_bounds_spec : forall n i, in_bounds n i = true <-> 0 <= i < n.
Proof. intros; unfold in_bounds; rewrite andb_true_iff, Z.leb_le, Z.ltb_lt; lia. Qed.

Lemma in_bounds_false : forall n i, in_bounds n i = false <-> ~ (0 <= i < n).
Proof.
  intros; rewrite <- in_bounds_spec; destruct (in_bounds n i);
  split; intros; congruence.
Qed.

Lemma norm_index_nonneg : forall n i, 0 <= i -> norm_index n i = i.
Proof. intros; unfold norm_index; destruct (Z.ltb_spec i 0); lia. Qed.

Lemma gather_in : forall A (m : oob A) d l i,
  0 <= i < zlen l -> gather m l i = zget d l i.
Proof.
  intros; unfold gather, zget; rewrite norm_index_nonneg by lia.
  rewrite (proj2 (in_bounds_spec _ _)) by lia.
  apply nth_indep; unfold zlen in *; lia.
Qed.

Lemma gather_fill_in : forall A (v d : A) l i,
  0 <= i < zlen l -> gather_fill v l i = zget d l i.
Proof. intros; unfold gather_fill; now apply gather_in. Qed.

Lemma zget_over : forall A (d : A) l i, zlen l <= i -> zget d l i = d.
Proof. intros; unfold zget, zlen in *; apply nth_overflow; lia. Qed.

Lemma gather_fill_zget : forall A (v : A) l i,
  0 <= i -> gather_fill v l i = zget v l i.
Proof.
  intros; destruct (Z.lt_ge_cases i (zlen l)).
  - apply gather_fill_in; lia.
  - rewrite zget_over by lia. unfold gather_fill, gather; simpl.
    rewrite norm_index_nonneg by lia.
    now rewrite (proj2 (in_bounds_false _ _)) by lia.
Qed.

Lemma zget_indep : forall A (d d' : A) l i, 0 <= i < zlen l -> zget d l i = zget d' l i.
Proof. intros; unfold zget, zlen in *; apply nth_indep; lia. Qed.

Lemma zget_nil : forall A (d : A) i, zget d [] i = d.
Proof. intros; unfold zget; now destruct (Z.to_nat i). Qed.

Lemma zget_cons0 : forall A (d x : A) l, zget d (x :: l) 0 = x.
Proof. reflexivity. Qed.

Lemma zget_cons : forall A (d x : A) l i,
  0 < i -> zget d (x :: l) i = zget d l (i - 1).
Proof.
  intros; unfold zget. replace (Z.to_nat i) with (S (Z.to_nat (i - 1))) by lia.
  reflexivity.
Qed.

Lemma zget_map : forall A B (f : A -> B) d d' l i,
  0 <= i < zlen l -> zget d' (map f l) i = f (zget d l i).
Proof.
  intros; unfold zget. rewrite nth_indep with (d' := f d).
  - apply map_nth.
  - rewrite map_length; unfold zlen in *; lia.
Qed.

Lemma zget_full : forall A (d x : A) n i, 0 <= i < n -> zget d (full n x) i = x.
Proof.
  intros; unfold zget, full.
  assert (H1 : In (nth (Z.to_nat i) (repeat x (Z.to_nat n)) d) (repeat x (Z.to_nat n))).
  { apply nth_In; rewrite repeat_length; lia. }
  now apply repeat_spec in H1.
Qed.

Lemma zget_full_same : forall A (x : A) n i, zget x (full n x) i = x.
Proof. intros; unfold zget, full; apply nth_repeat. Qed.

Lemma nth_upd : forall A n (v d : A) l m,
  (n < length l)%nat -> nth m (upd n v l) d = if Nat.eqb n m then v else nth m l d.
Proof.
  induction n; destruct l; simpl; intros; try lia.
  - destruct m; reflexivity.
  - destruct m; simpl; auto. apply IHn; lia.
Qed.

Lemma upd_over : forall A n (v : A) l, (length l <= n)%nat -> upd n v l = l.
Proof.
  induction n; destruct l; simpl; intros; auto; try lia. f_equal; apply IHn; lia.
Qed.

Lemma zget_scatter_set : forall A (d v : A) l i j,
  0 <= i < zlen l -> 0 <= j ->
  zget d (scatter_set l i v) j = if i =? j then v else zget d l j.
Proof.
  intros; unfold scatter_set, zget. rewrite norm_index_nonneg by lia.
  rewrite (proj2 (in_bounds_spec _ _)) by lia.
  rewrite nth_upd by (unfold zlen in *; lia).
  destruct (Z.eqb_spec i j).
  - subst; now rewrite Nat.eqb_refl.
  - destruct (Nat.eqb_spec (Z.to_nat i) (Z.to_nat j)); auto; lia.
Qed.

Lemma scatter_set_over : forall A (v : A) l i, zlen l <= i -> scatter_set l i v = l.
Proof.
  intros; unfold scatter_set. pose proof (zlen_nonneg _ l).
  rewrite norm_index_nonneg by lia.
  now rewrite (proj2 (in_bounds_false _ _)) by lia.
Qed.

(** one formula for in-bounds and dropped updates *)
Lemma zget_scatter_set_gen : forall A (d v : A) l i j,
  0 <= i -> 0 <= j < zlen l ->
  zget d (scatter_set l i v) j = if i =? j then v else zget d l j.
Proof.
  intros. destruct (Z.lt_ge_cases i (zlen l)).
  - apply zget_scatter_set; lia.
  - rewrite scatter_set_over by lia. destruct (Z.eqb_spec i j); auto; lia.
Qed.

Lemma scatter_upd_over : forall A f (l : list A) i, zlen l <= i -> scatter_upd l i f = l.
Proof.
  intros; unfold scatter_upd. pose proof (zlen_nonneg _ l).
  rewrite norm_index_nonneg by lia.
  now rewrite (proj2 (in_bounds_false _ _)) by lia.
Qed.

Lemma zget_scatter_upd : forall A (d : A) f l i j,
  0 <= i < zlen l -> 0 <= j ->
  zget d (scatter_upd l i f) j = if i =? j then f (zget d l j) else zget d l j.
Proof.
  intros; unfold scatter_upd, zget. rewrite norm_index_nonneg by lia.
  rewrite (proj2 (in_bounds_spec _ _)) by lia.
  destruct (nth_error l (Z.to_nat i)) eqn:E.
  - apply nth_error_nth with (d := d) in E.
    rewrite nth_upd by (unfold zlen in *; lia).
    destruct (Z.eqb_spec i j).
    + subst; now rewrite Nat.eqb_refl.
    + destruct (Nat.eqb_spec (Z.to_nat i) (Z.to_nat j)); auto; lia.
  - apply nth_error_None in E; unfold zlen in *; lia.
Qed.

Lemma zget_scatter_upd_gen : forall A (d : A) f l i j,
  0 <= i -> 0 <= j < zlen l ->
  zget d (scatter_upd l i f) j = if i =? j then f (zget d l j) else zget d l j.
Proof.
  intros. destruct (Z.lt_ge_cases i (zlen l)).
  - apply zget_scatter_upd; lia.
  - rewrite scatter_upd_over by lia. destruct (Z.eqb_spec i j); auto; lia.
Qed.

Lemma zget_arange : forall d n i, 0 <= i < n -> zget d (arange n) i = i.
Proof.
  intros; unfold zget, arange.
  rewrite nth_indep with (d' := Z.of_nat 0) by (rewrite map_length, seq_length; lia).
  rewrite map_nth, seq_nth by lia. lia.
Qed.

Lemma nth_map2 : forall A B C (f : A -> B -> C) d da db a b i,
  (i < length a)%nat -> (i < length b)%nat ->
  nth i (map2 f a b) d = f (nth i a da) (nth i b db).
Proof.
  induction a; destruct b; simpl; intros; try lia.
  destruct i; auto. apply IHa; lia.
Qed.

Lemma zget_map2 : forall A B C (f : A -> B -> C) d da db a b i,
  0 <= i < zlen a -> 0 <= i < zlen b ->
  zget d (map2 f a b) i = f (zget da a i) (zget db b i).
Proof. intros; unfold zget, zlen in *; apply nth_map2; lia. Qed.

Lemma zget_app_l : forall A (d : A) l l' i,
  0 <= i < zlen l -> zget d (l ++ l') i = zget d l i.
Proof. intros; unfold zget, zlen in *; apply app_nth1; lia. Qed.

Lemma zget_app_r : forall A (d : A) l l' i,
  zlen l <= i -> zget d (l ++ l') i = zget d l' (i - zlen l).
Proof.
  intros; unfold zget, zlen in *; rewrite app_nth2 by lia. f_equal; lia.
Qed.

(** extensionality of arrays *)
Lemma list_ext : forall A (d : A) l l',
  zlen l = zlen l' -> (forall i, 0 <= i < zlen l -> zget d l i = zget d l' i) -> l = l'.
Proof.
  intros A d l l' Hl H. apply nth_ext with (d := d) (d' := d).
  - unfold zlen in *; lia.
  - intros n Hn. specialize (H (Z.of_nat n)). unfold zget in H.
    rewrite Nat2Z.id in H. apply H. unfold zlen; lia.
Qed.

Lemma zget_In : forall A (d : A) l i, 0 <= i < zlen l -> In (zget d l i) l.
Proof. intros; unfold zget, zlen in *; apply nth_In; lia. Qed.

Lemma In_zget : forall A (d : A) l x,
  In x l -> exists i, 0 <= i < zlen l /\ zget d l i = x.
Proof.
  intros A d l x H. apply In_nth with (d := d) in H. destruct H as (n & Hn & E).
  exists (Z.of_nat n). unfold zlen, zget. rewrite Nat2Z.id. split; [lia | auto].
Qed.

Lemma map2_map_l : forall A A' B C (f : A -> B -> C) (h : A' -> A) a b,
  map2 f (map h a) b = map2 (fun x y => f (h x) y) a b.
Proof. induction a; destruct b; simpl; auto; f_equal; auto. Qed.

Lemma map2_map_r : forall A B B' C (f : A -> B -> C) (h : B' -> B) a b,
  map2 f a (map h b) = map2 (fun x y => f x (h y)) a b.
Proof. induction a; destruct b; simpl; auto; f_equal; auto. Qed.

Lemma map2_same : forall A C (f : A -> A -> C) a, map2 f a a = map (fun x => f x x) a.
Proof. induction a; simpl; auto; f_equal; auto. Qed.

Lemma map2_map_map : forall A B C D (f : B -> C -> D) (h : A -> B) (k : A -> C) a,
  map2 f (map h a) (map k a) = map (fun x => f (h x) (k x)) a.
Proof. induction a; simpl; auto; f_equal; auto. Qed.

Lemma map_map2 : forall A B C D (h : C -> D) (f : A -> B -> C) a b,
  map h (map2 f a b) = map2 (fun x y => h (f x y)) a b.
Proof. induction a; destruct b; simpl; auto; f_equal; auto. Qed.

Lemma map2_ext : forall A B C (f f' : A -> B -> C) a b,
  (forall x y, f x y = f' x y) -> map2 f a b = map2 f' a b.
Proof. induction a; destruct b; simpl; auto; intros; f_equal; auto. Qed.

Lemma In_map2 : forall A B C (f : A -> B -> C) a b z,
  In z (map2 f a b) -> exists x y, In x a /\ In y b /\ z = f x y.
Proof.
  induction a; destruct b; simpl; try tauto. intros z [H | H].
  - eauto 8.
  - apply IHa in H. destruct H as (x & y & H1 & H2 & H3). eauto 8.
Qed.

Lemma In_combine_map2 : forall A B C (f : A -> B -> C) a b,
  map2 f a b = map (fun p => f (fst p) (snd p)) (combine a b).
Proof. induction a; destruct b; simpl; auto; f_equal; auto. Qed.

(** ** counting *)

Lemma count_nonzero_nonneg : forall l, 0 <= count_nonzero l.
Proof. intros; apply zlen_nonneg. Qed.

Lemma count_nonzero_cons : forall b l,
  count_nonzero (b :: l) = b2z b + count_nonzero l.
Proof. intros; unfold count_nonzero; destruct b; simpl; rewrite ?zlen_cons; auto. Qed.

Lemma count_nonzero_app : forall l l',
  count_nonzero (l ++ l') = count_nonzero l + count_nonzero l'.
Proof. intros; unfold count_nonzero; now rewrite filter_app, zlen_app. Qed.

Lemma count_nonzero_le : forall l, count_nonzero l <= zlen l.
Proof.
  induction l; [reflexivity |]. rewrite count_nonzero_cons, zlen_cons.
  destruct a; simpl b2z; lia.
Qed.

Lemma count_nonzero_pos : forall l, 0 < count_nonzero l <-> In true l.
Proof.
  induction l.
  - simpl; split; [intro H; inversion H | tauto].
  - rewrite count_nonzero_cons. pose proof (count_nonzero_nonneg l).
    destruct a; cbn [b2z In]; split; intros; auto; try lia.
    + right; apply IHl; lia.
    + destruct H0; [discriminate | apply IHl in H0; lia].
Qed.

Lemma count_nonzero_0 : forall l, count_nonzero l = 0 <-> (forall b, In b l -> b = false).
Proof.
  intros. pose proof (count_nonzero_pos l) as Hp. pose proof (count_nonzero_nonneg l).
  split.
  - intros E b Hb. destruct b; auto. apply Hp in Hb; lia.
  - intros Ha. destruct (Z.eq_dec (count_nonzero l) 0); auto.
    assert (Ht : In true l) by (apply Hp; lia). now apply Ha in Ht.
Qed.

(** ** the dtypes *)

Lemma wrap_small : forall bits x, 0 <= x < 2 ^ bits -> wrap bits x = x.
Proof. intros; unfold wrap; now apply Z.mod_small. Qed.

Lemma minimal_unsigned_bits_fits : forall x,
  0 <= x < 2 ^ 64 -> x < 2 ^ minimal_unsigned_bits x.
Proof.
  intros; unfold minimal_unsigned_bits.
  destruct (Z.ltb_spec x (2 ^ 8)); auto.
  destruct (Z.ltb_spec x (2 ^ 16)); auto.
  destruct (Z.ltb_spec x (2 ^ 32)); auto. lia.
Qed.

Lemma minimal_unsigned_bits_ge8 : forall x, 8 <= minimal_unsigned_bits x.
Proof.
  intros; unfold minimal_unsigned_bits.
  destruct (x <? _); [lia | destruct (x <? _); [lia | destruct (x <? _); lia]].
Qed.

Lemma shiftl_1 : forall i, Z.shiftl i 1 = 2 * i.
Proof. intros; rewrite Z.shiftl_mul_pow2 by lia; change (2 ^ 1) with 2; lia. Qed.

Lemma shiftr_1 : forall i, Z.shiftr i 1 = i / 2.
Proof. intros; now rewrite Z.shiftr_div_pow2 by lia. Qed.

Lemma land_1 : forall i, Z.land i 1 = i mod 2.
Proof. intros; change 1 with (Z.ones 1); now rewrite Z.land_ones by lia. Qed.

(** ** iteration *)

Lemma iterate_S : forall C n (f : C -> C) c, iterate (S n) f c = f (iterate n f c).
Proof.
  induction n; intros; simpl; auto. rewrite <- IHn. reflexivity.
Qed.

Lemma iterate_ind : forall C (f : C -> C) (P : nat -> C -> Prop) n c,
  P O c -> (forall k c, P k c -> P (S k) (f c)) -> P n (iterate n f c).
Proof.
  intros C f P n; induction n; intros; auto. rewrite iterate_S. auto.
Qed.

Lemma pow2_pos : forall n, 0 <= n -> 0 < 2 ^ n.
Proof. intros; apply Z.pow_pos_nonneg; lia. Qed.

Lemma pow2_S : forall n, 0 <= n -> 2 ^ (n + 1) = 2 * 2 ^ n.
Proof. intros. rewrite Z.pow_add_r by lia. lia. Qed.

Lemma pow2_pred : forall n, 1 <= n -> 2 ^ n = 2 * 2 ^ (n - 1).
Proof. intros. rewrite <- pow2_S by lia. f_equal; lia. Qed.
