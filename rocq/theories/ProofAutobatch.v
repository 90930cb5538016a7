(** Lemmas on arrays and batches. *)
From Coq Require Import String ZArith List Bool Lia.
From Verif Require Import Base LemBase ModelAutobatch SpecAutobatch.
Import ListNotations.
Open Scope nat_scope.

(** ** insert and remove *)
Section Lists.
  Context {B : Type}.
  Implicit Types l : list B.

  Lemma length_insert k v l : length (insert k v l) = S (length l).
  Proof.
    unfold insert. rewrite app_length. cbn [length]. rewrite firstn_length, skipn_length. lia.
  Qed.
  Lemma length_remove k l : k < length l -> S (length (remove k l)) = length l.
  Proof. intros. unfold remove. rewrite app_length, firstn_length, skipn_length. lia. Qed.

  Lemma insert_0 v l : insert 0 v l = v :: l. Proof. reflexivity. Qed.
  Lemma remove_0 v l : remove 0 (v :: l) = l. Proof. reflexivity. Qed.
  Lemma insert_S k v x l : insert (S k) v (x :: l) = x :: insert k v l. Proof. reflexivity. Qed.
  Lemma remove_S k x l : remove (S k) (x :: l) = x :: remove k l. Proof. reflexivity. Qed.

  Lemma insert_remove k d l : k < length l -> insert k (nth k l d) (remove k l) = l.
  Proof.
    revert l. induction k as [| k IH]; intros [| x l] H; cbn [length] in H; try lia; [reflexivity |].
    rewrite remove_S, insert_S. cbn [nth]. f_equal. apply IH. lia.
  Qed.
  Lemma remove_insert k v l : k <= length l -> remove k (insert k v l) = l.
  Proof.
    revert l. induction k as [| k IH]; intros l H; [reflexivity |].
    destruct l as [| x l]; cbn [length] in H; [lia |]. rewrite insert_S, remove_S. f_equal. apply IH. lia.
  Qed.
  Lemma nth_insert k v d l : k <= length l -> nth k (insert k v l) d = v.
  Proof.
    revert l. induction k as [| k IH]; intros l H; [reflexivity |].
    destruct l as [| x l]; cbn [length] in H; [lia |]. rewrite insert_S. cbn [nth]. apply IH. lia.
  Qed.
End Lists.

Lemma nth_skipn_add {B} (d : B) n i l : nth i (skipn n l) d = nth (n + i) l d.
Proof.
  revert n. induction l as [| x l IH]; intros [| n]; cbn [skipn Nat.add]; auto.
  - now destruct i.
  - cbn [nth]. apply IH.
Qed.
Lemma nth_firstn_lt {B} (d : B) n i l : i < n -> nth i (firstn n l) d = nth i l d.
Proof.
  revert i l. induction n as [| n IH]; intros i l H; [lia |]. destruct l as [| x l]; [reflexivity |].
  destruct i as [| i]; [reflexivity |]. cbn. apply IH. lia.
Qed.

(** ** Shapes and indices *)

(** a multi-index within a shape *)
Definition within (idx s : list nat) : Prop := Forall2 lt idx s.

Lemma within_length idx s : within idx s -> length idx = length s.
Proof. induction 1; cbn; congruence. Qed.

Lemma within_insert k i n idx s : within idx s -> i < n -> within (insert k i idx) (insert k n s).
Proof.
  intros H Hi. revert k. induction H as [| j m idx s Hj H IH]; intros [| k].
  - repeat constructor; auto.
  - unfold insert. cbn. repeat constructor; auto.
  - rewrite !insert_0. repeat (constructor; auto).
  - rewrite !insert_S. constructor; auto. apply IH.
Qed.
Lemma within_remove k idx s : within idx s -> within (remove k idx) (remove k s).
Proof.
  intros H. revert k. induction H as [| j m idx s Hj H IH]; intros [| k].
  - constructor.
  - constructor.
  - exact H.
  - rewrite !remove_S. constructor; auto. apply IH.
Qed.
Lemma within_nth k idx s : within idx s -> k < length s -> nth k idx 0 < nth k s 0.
Proof.
  intros H. revert k. induction H as [| j m idx s Hj H IH]; intros [| k] Hk; cbn in *; try lia.
  apply IH. lia.
Qed.

Lemma prod_cons n s : prod (n :: s) = n * prod s. Proof. reflexivity. Qed.

Lemma prod_insert k n s : prod (insert k n s) = n * prod s.
Proof.
  revert s. induction k as [| k IH]; intros s; [reflexivity |]. destruct s as [| m s].
  - unfold insert. cbn. reflexivity.
  - rewrite insert_S, !prod_cons, IH. nia.
Qed.
Lemma prod_remove k n s : nth_error s k = Some n -> prod s = n * prod (remove k s).
Proof.
  intros H. assert (L : k < length s) by (apply nth_error_Some; congruence).
  rewrite <- (insert_remove k 0 s L) at 1. rewrite prod_insert. now rewrite (nth_error_nth _ _ 0 H).
Qed.

Lemma ravel_bound idx s : within idx s -> ravel s idx < prod s.
Proof.
  induction 1 as [| i n idx s Hi H IH]; [cbn; lia |]. cbn [ravel]. rewrite prod_cons. nia.
Qed.

Lemma indices_within s idx : In idx (indices s) <-> within idx s.
Proof.
  revert idx. induction s as [| n s IH]; intros idx; cbn [indices].
  - split.
    + intros [<- | []]. constructor.
    + intros H. inversion H. now left.
  - rewrite in_flat_map. split.
    + intros (i & Hi & H). apply in_map_iff in H as (r & <- & Hr). apply in_seq in Hi.
      constructor; [lia |]. now apply IH.
    + intros H. inversion H as [| i m r s' Hi Hr]; subst. exists i. split; [apply in_seq; lia |].
      apply in_map, IH, Hr.
Qed.

Lemma map_add_seq a n m : map (fun x => a + x) (seq m n) = seq (a + m) n.
Proof.
  revert m. induction n as [| n IH]; intros m; [reflexivity |]. cbn [seq map]. f_equal.
  rewrite IH. f_equal. lia.
Qed.

Lemma flat_map_seq n p : flat_map (fun i => map (fun x => i * p + x) (seq 0 p)) (seq 0 n) = seq 0 (n * p).
Proof.
  induction n as [| n IH]; [reflexivity |]. rewrite seq_S, flat_map_app, IH. cbn [flat_map].
  rewrite app_nil_r, map_add_seq. replace (S n * p) with (n * p + p) by lia.
  rewrite seq_app. f_equal. f_equal. lia.
Qed.

Lemma flat_map_ext_in B C (f g : B -> list C) l : (forall x, In x l -> f x = g x) -> flat_map f l = flat_map g l.
Proof.
  induction l as [| x l IH]; intros H; [reflexivity |]. cbn. rewrite H by now left. f_equal. apply IH.
  intros; apply H; now right.
Qed.

Lemma ravel_indices s : map (ravel s) (indices s) = seq 0 (prod s).
Proof.
  induction s as [| n s IH]; [reflexivity |]. cbn [indices]. rewrite prod_cons, <- flat_map_seq.
  rewrite flat_map_concat_map, concat_map, map_map, <- flat_map_concat_map.
  apply flat_map_ext_in. intros i _. rewrite map_map. cbn [ravel].
  rewrite <- (map_map (ravel s) (fun x => i * prod s + x)). now rewrite IH.
Qed.

Lemma length_indices s : length (indices s) = prod s.
Proof. rewrite <- (map_length (ravel s)), ravel_indices. apply seq_length. Qed.

Lemma nth_indices s idx : within idx s -> nth (ravel s idx) (indices s) [] = idx.
Proof.
  induction 1 as [| i n idx s Hi H IH]; [reflexivity |]. cbn [indices ravel].
  pose proof (ravel_bound _ _ H) as B. pose proof (length_indices s) as L.
  assert (G : forall a, i < a + n -> a <= i ->
    nth ((i - a) * prod s + ravel s idx) (flat_map (fun j => map (cons j) (indices s)) (seq a n)) [] = i :: idx).
  { clear Hi. induction n as [| n IHn]; intros a H1 H2; [lia |]. cbn [seq flat_map].
    destruct (Nat.eq_dec i a) as [-> | N].
    - replace ((a - a) * prod s + ravel s idx) with (ravel s idx) by lia.
      rewrite app_nth1 by (rewrite map_length; lia).
      rewrite (nth_indep _ [] (a :: [])) by (rewrite map_length; lia). rewrite map_nth. now rewrite IH.
    - rewrite app_nth2 by (rewrite map_length, L; nia). rewrite map_length, L.
      replace ((i - a) * prod s + ravel s idx - prod s) with ((i - S a) * prod s + ravel s idx) by nia.
      apply IHn; lia. }
  specialize (G 0). rewrite Nat.sub_0_r in G. apply G; lia.
Qed.

(** ** Arrays *)
Section Arrays.
  Context {A : Type} (d : A).
  Implicit Types x y : arr A.

  Lemma wf_tabulate t s (f : list nat -> A) : wf (tabulate t s f).
  Proof. unfold wf, tabulate. cbn. now rewrite map_length, length_indices. Qed.

  Lemma get_tabulate t s (f : list nat -> A) idx : within idx s -> get d (tabulate t s f) idx = f idx.
  Proof.
    intros H. unfold get, tabulate. cbn [shp dat].
    rewrite (nth_indep _ d (f [])) by (rewrite map_length, length_indices; now apply ravel_bound).
    rewrite map_nth. now rewrite nth_indices.
  Qed.

  Lemma dat_get x : wf x -> dat x = map (get d x) (indices (shp x)).
  Proof.
    intros H. unfold get. rewrite <- (map_map (ravel (shp x)) (fun k => nth k (dat x) d)), ravel_indices.
    rewrite <- H. clear H. generalize (dat x). intros l. induction l as [| v l IH]; [reflexivity |].
    cbn [length seq map nth]. f_equal. rewrite <- seq_shift, map_map. exact IH.
  Qed.

  Lemma arr_ext x y : wf x -> wf y -> shp x = shp y -> dty x = dty y ->
    (forall idx, within idx (shp x) -> get d x idx = get d y idx) -> x = y.
  Proof.
    intros Wx Wy S T H. destruct x as [s t l] eqn:Ex, y as [s' t' l'] eqn:Ey. rewrite <- Ex, <- Ey in *.
    assert (E : dat x = dat y).
    { rewrite (dat_get x Wx), (dat_get y Wy), <- S. apply map_ext_in. intros idx Hi.
      apply H. now apply indices_within. }
    rewrite Ex, Ey in S, T, E. cbn in S, T, E. rewrite Ex, Ey. congruence.
  Qed.

  Lemma wf_moveaxis x a b : wf (moveaxis d x a b). Proof. apply wf_tabulate. Qed.
  Lemma wf_slice k a m x : wf (slice d k a m x). Proof. apply wf_tabulate. Qed.

  Lemma get_row x j n s idx : shp x = n :: s -> wf x -> j < n -> within idx s ->
    get d (row x j) idx = get d x (j :: idx).
  Proof.
    intros S W Hj H. unfold get, row. cbn [shp dat]. rewrite S. cbn [tl ravel].
    pose proof (ravel_bound _ _ H) as B. rewrite nth_firstn_lt by exact B. now rewrite nth_skipn_add.
  Qed.

  Lemma wf_row x j n s : shp x = n :: s -> wf x -> j < n -> wf (row x j).
  Proof.
    intros S W Hj. unfold wf, row in *. cbn [shp dat]. rewrite S in *. cbn [tl].
    rewrite firstn_length, skipn_length, W, prod_cons. nia.
  Qed.

  Lemma nth_concat_rows (xs : list (arr A)) p j r : (forall x, In x xs -> length (dat x) = p) ->
    j < length xs -> r < p -> forall x0,
    nth (j * p + r) (concat (map dat xs)) d = nth r (dat (nth j xs x0)) d.
  Proof.
    revert j. induction xs as [| x xs IH]; intros j H Hj Hr x0; [cbn in Hj; lia |].
    cbn [map concat]. destruct j as [| j].
    - rewrite app_nth1 by (rewrite H by (now left); lia). reflexivity.
    - rewrite app_nth2 by (rewrite H by (now left); lia). rewrite H by (now left). cbn [nth].
      replace (S j * p + r - p) with (j * p + r) by lia. apply IH; auto; [| cbn in Hj; lia].
      intros; apply H; now right.
  Qed.

  Lemma get_stack (xs : list (arr A)) x0 s j idx :
    (forall x, In x xs -> shp x = s /\ wf x) -> j < length xs -> within idx s ->
    get d (stack xs x0) (j :: idx) = get d (nth j xs x0) idx.
  Proof.
    intros H Hj Hi. unfold get, stack. cbn [shp dat ravel].
    assert (E : shp (hd x0 xs) = s) by (destruct xs; [cbn in Hj; lia | apply H; now left]).
    assert (E' : shp (nth j xs x0) = s) by (apply H, nth_In, Hj).
    rewrite E, E'. apply nth_concat_rows; auto; [| now apply ravel_bound].
    intros x Hx. destruct (H x Hx) as [<- W]. exact W.
  Qed.

  Lemma wf_stack (xs : list (arr A)) x0 s : (forall x, In x xs -> shp x = s /\ wf x) -> xs <> [] ->
    wf (stack xs x0) /\ shp (stack xs x0) = length xs :: s.
  Proof.
    intros H N. unfold wf, stack. cbn [shp dat].
    assert (E : shp (hd x0 xs) = s) by (destruct xs; [congruence | apply H; now left]).
    rewrite E. split; [| reflexivity]. rewrite prod_cons. clear E N.
    induction xs as [| x xs IH]; [reflexivity |]. cbn [map concat length]. rewrite app_length, IH.
    - destruct (H x (or_introl eq_refl)) as [<- W]. rewrite W. lia.
    - intros; apply H; now right.
  Qed.

  Lemma get_reshape x nb m s j i idx : shp x = nb * m :: s ->
    get d (reshape x (nb :: m :: s)) (j :: i :: idx) = get d x (j * m + i :: idx).
  Proof.
    intros S. unfold get, reshape. cbn [shp dat]. rewrite S. cbn [ravel]. rewrite prod_cons. f_equal. lia.
  Qed.

  Lemma get_unbatch x nb m s j i idx : shp x = nb :: m :: s ->
    get d (unbatch x) (j * m + i :: idx) = get d x (j :: i :: idx).
  Proof.
    intros S. unfold get, unbatch, reshape. rewrite S. cbn [nth skipn shp dat ravel]. rewrite prod_cons. f_equal. lia.
  Qed.

  (** ** Batches of the arguments *)
  Lemma get_moveaxis_out x k i idx : k < length (shp x) -> i < nth k (shp x) 0 ->
    within idx (remove k (shp x)) ->
    get d (moveaxis d x k 0) (i :: idx) = get d x (insert k i idx).
  Proof.
    intros Hk Hi H. unfold moveaxis. rewrite get_tabulate; [reflexivity |].
    rewrite insert_0. constructor; auto.
  Qed.

  Lemma get_moveaxis_in x k n s idx : shp x = n :: s -> k <= length s -> within idx (insert k n s) ->
    get d (moveaxis d x 0 k) idx = get d x (nth k idx 0 :: remove k idx).
  Proof.
    intros S Hk H. unfold moveaxis. rewrite S, remove_0. cbn [nth]. now rewrite get_tabulate.
  Qed.

  Lemma batch_slice x k nb m j : wf x -> nth_error (shp x) k = Some (nb * m) -> j < nb ->
    moveaxis d (row (batch nb (moveaxis d x k 0)) j) 0 k = slice d k (j * m) m x.
  Proof.
    intros W E Hj. assert (Hk : k < length (shp x)) by (apply nth_error_Some; congruence).
    pose proof (nth_error_nth _ _ 0 E) as E'. set (s := remove k (shp x)).
    pose proof (length_remove k _ Hk) as Ls. fold s in Ls.
    set (y := moveaxis d x k 0).
    assert (Sy : shp y = nb * m :: s) by (unfold y, moveaxis, tabulate; cbn [shp]; rewrite insert_0, E'; reflexivity).
    set (z := batch nb y).
    assert (Sz : shp z = nb :: m :: s).
    { unfold z, batch, reshape. cbn [shp]. rewrite Sy. cbn [hd tl]. f_equal. f_equal.
      rewrite Nat.mul_comm. apply Nat.div_mul. lia. }
    assert (Ez : z = reshape y (nb :: m :: s)) by (rewrite <- Sz; reflexivity).
    assert (Wz : wf z).
    { rewrite Ez. unfold wf, reshape. cbn [shp dat]. pose proof (wf_moveaxis x k 0) as Wy. fold y in Wy.
      unfold wf in Wy. rewrite Wy, Sy, !prod_cons. lia. }
    set (w := row z j). assert (Sw : shp w = m :: s) by (unfold w, row; cbn [shp]; now rewrite Sz).
    assert (S1 : shp (moveaxis d w 0 k) = insert k m s).
    { unfold moveaxis, tabulate. cbn [shp]. rewrite Sw, remove_0. reflexivity. }
    apply arr_ext.
    - apply wf_moveaxis.
    - apply wf_slice.
    - exact S1.
    - reflexivity.
    - intros idx H. rewrite S1 in H. unfold slice. rewrite get_tabulate by exact H.
      rewrite (get_moveaxis_in w k m s) by (auto; lia).
      pose proof (within_remove k _ _ H) as Hr. rewrite remove_insert in Hr by lia.
      assert (Hn : nth k idx 0 < m).
      { pose proof (within_nth k _ _ H) as Q. rewrite nth_insert in Q by lia. apply Q. rewrite length_insert. lia. }
      unfold w. rewrite (get_row z j nb (m :: s)); auto; [| constructor; auto].
      rewrite Ez, (get_reshape y) by exact Sy. unfold y. apply get_moveaxis_out; auto.
      rewrite E'. nia.
  Qed.

  (** ** Reassembling the results *)
  Lemma shp_slice k a m y : shp (slice d k a m y) = insert k m (remove k (shp y)).
  Proof. reflexivity. Qed.

  Lemma unbatch_slices y k nb m x0 : wf y -> nth_error (shp y) k = Some (nb * m) -> 0 < nb ->
    moveaxis d (unbatch (stack (map (fun j => moveaxis d (slice d k (j * m) m y) k 0) (seq 0 nb)) x0)) 0 k = y.
  Proof.
    intros W E Hnb. assert (Hk : k < length (shp y)) by (apply nth_error_Some; congruence).
    pose proof (nth_error_nth _ _ 0 E) as E'. set (s := remove k (shp y)).
    pose proof (length_remove k _ Hk) as Ls. fold s in Ls.
    set (piece := fun j => moveaxis d (slice d k (j * m) m y) k 0).
    assert (Sp : forall j, shp (piece j) = m :: s).
    { intros j. unfold piece, moveaxis, tabulate. cbn [shp]. rewrite insert_0, shp_slice.
      fold s. rewrite nth_insert, remove_insert by lia. reflexivity. }
    set (xs := map piece (seq 0 nb)).
    assert (Hxs : forall x, In x xs -> shp x = m :: s /\ wf x).
    { intros x Hx. apply in_map_iff in Hx as (j & <- & _). split; [apply Sp | apply wf_moveaxis]. }
    assert (Lxs : length xs = nb) by (unfold xs; now rewrite map_length, seq_length).
    assert (Nxs : xs <> []) by (intros Q; rewrite Q in Lxs; cbn in Lxs; lia).
    destruct (wf_stack xs x0 _ Hxs Nxs) as [Wst Sst]. rewrite Lxs in Sst.
    set (st := stack xs x0) in *. set (u := unbatch st).
    assert (Su : shp u = nb * m :: s) by (unfold u, unbatch, reshape; rewrite Sst; reflexivity).
    assert (S1 : shp (moveaxis d u 0 k) = shp y).
    { unfold moveaxis, tabulate. cbn [shp]. rewrite Su, remove_0. cbn [nth]. unfold s. rewrite <- E'.
      now apply insert_remove. }
    apply arr_ext; auto.
    - apply wf_moveaxis.
    - unfold moveaxis, tabulate. cbn [dty]. unfold u, unbatch, reshape. cbn [dty].
      unfold st, stack. cbn [dty].
      assert (Ehd : hd x0 xs = piece 0).
      { unfold xs. destruct nb; [lia | reflexivity]. }
      rewrite Ehd. reflexivity.
    - intros idx H. rewrite S1 in H.
      assert (H' : within idx (insert k (nb * m) s)).
      { unfold s. rewrite <- E'. now rewrite insert_remove. }
      rewrite (get_moveaxis_in u k (nb * m) s) by (auto; lia).
      pose proof (within_remove k _ _ H) as Hr. fold s in Hr.
      pose proof (within_nth k _ _ H Hk) as Hn. rewrite E' in Hn.
      set (i := nth k idx 0) in *.
      assert (Hm : m <> 0) by (intros ->; lia).
      pose proof (Nat.div_mod i m Hm) as DM. pose proof (Nat.mod_upper_bound i m Hm) as MB.
      assert (Hq : i / m < nb) by (apply Nat.div_lt_upper_bound; lia).
      replace i with (i / m * m + i mod m) by lia. unfold u. rewrite (get_unbatch st nb m s) by exact Sst.
      unfold st. rewrite (get_stack xs x0 (m :: s)); auto; [| lia | constructor; auto].
      assert (Epc : nth (i / m) xs x0 = piece (i / m)).
      { unfold xs. rewrite (nth_indep _ x0 (piece 0)) by (rewrite map_length, seq_length; lia).
        rewrite map_nth, seq_nth by lia. reflexivity. }
      rewrite Epc. unfold piece.
      rewrite get_moveaxis_out.
      + unfold slice. rewrite get_tabulate.
        * rewrite nth_insert, remove_insert by (rewrite (within_length _ _ Hr); lia).
          replace (i / m * m + i mod m) with i by lia. unfold i. f_equal. apply insert_remove.
          rewrite (within_length _ _ H). exact Hk.
        * fold s. apply within_insert; auto.
      + rewrite shp_slice, length_insert. fold s. lia.
      + rewrite shp_slice. fold s. rewrite nth_insert by lia. exact MB.
      + rewrite shp_slice. fold s. rewrite remove_insert by lia. exact Hr.
  Qed.
End Arrays.

(** ** Numbers of batches *)
Open Scope Z_scope.

Lemma in_range lo hi v : In v (range lo hi) <-> lo <= v < hi.
Proof.
  unfold range, arange. rewrite map_map, in_map_iff. split.
  - intros (i & <- & Hi). apply in_seq in Hi. lia.
  - intros H. exists (Z.to_nat (v - lo)). split; [lia |]. apply in_seq. lia.
Qed.
Lemma in_range_down hi v : In v (range_down hi) <-> 1 <= v <= hi.
Proof.
  unfold range_down, arange. rewrite map_map, in_map_iff. split.
  - intros (i & <- & Hi). apply in_seq in Hi. lia.
  - intros H. exists (Z.to_nat (hi - v)). split; [lia |]. apply in_seq. lia.
Qed.

Lemma next_divisor_spec root n lo : 1 <= lo -> 1 <= n ->
  let k := next_divisor root n lo in
  1 <= k <= n /\ (k | n) /\ (lo <= n -> lo <= k) /\ (n < lo -> k = n).
Proof.
  intros Hlo Hn. cbv zeta. unfold next_divisor. destruct (Z.eqb_spec n 0); [lia |].
  assert (S : forall k, (k | n) -> 1 <= k -> k <= n) by (intros k Hk H1; apply Z.divide_pos_le; [lia | exact Hk]).
  destruct (Z.leb_spec (lo * lo) n) as [Q | Q].
  - unfold next_divisor_small. assert (L : lo <= n) by nia.
    destruct (find _ _) as [k |] eqn:F.
    + apply find_some in F as [I D]. apply in_range in I. apply Z.eqb_eq in D.
      apply Z.mod_divide in D; [| lia]. pose proof (S k D ltac:(lia)).
      split; [lia |]. split; [exact D |]. split; lia.
    + split; [lia |]. split; [apply Z.divide_refl |]. split; lia.
  - unfold next_divisor_large.
    destruct (find _ _) as [k |] eqn:F.
    + apply find_some in F as [I D]. apply in_range_down in I. apply Z.eqb_eq in D.
      apply Z.mod_divide in D; [| lia]. destruct D as [c D].
      assert (E : n / k = c) by (rewrite D; apply Z.div_mul; lia). rewrite E.
      assert (C : 1 <= c) by nia.
      split; [nia |]. split; [exists k; lia |].
      assert (lo * k <= n). { pose proof (Z.mul_div_le n lo ltac:(lia)). nia. }
      split; [nia |]. intros Hlt. exfalso.
      assert (n / lo = 0) by (apply Z.div_small; lia). lia.
    + destruct (Z.lt_ge_cases n lo) as [L | L].
      * split; [lia |]. split; [apply Z.divide_refl |]. split; lia.
      * exfalso. assert (1 <= n / lo) by (apply Z.div_le_lower_bound; lia).
        pose proof (find_none _ _ F 1 ltac:(apply in_range_down; lia)) as Q1. cbv beta in Q1.
        now rewrite Z.mod_1_r in Q1.
Qed.

(** ** Bytes *)
Section Bytes.
  Context {A : Type} (d : A).

  Lemma nbytes_bytes (x : arr A) : wf x -> nbytes x = bytes x.
  Proof. unfold wf, nbytes, bytes. now intros ->. Qed.

  Lemma sum_nbytes_app (l : list (option (arr A))) : forall l',
    sum_nbytes (l ++ l') = sum_nbytes l + sum_nbytes l'.
  Proof.
    unfold sum_nbytes.
    assert (G : forall (l : list (option (arr A))) a,
      fold_left (fun size x => match x with Some x => size + nbytes x | None => size end) l a =
      a + fold_left (fun size x => match x with Some x => size + nbytes x | None => size end) l 0).
    { induction l0 as [| x l0 IH]; intros a; cbn [fold_left]; [lia |].
      rewrite IH. rewrite (IH (match x with Some x => 0 + nbytes x | None => 0 end)).
      destruct x; lia. }
    intros l'. rewrite fold_left_app, G. reflexivity.
  Qed.

  Lemma sum_nbytes_cons (x : option (arr A)) l :
    sum_nbytes (x :: l) = match x with Some x => nbytes x | None => 0 end + sum_nbytes l.
  Proof. change (x :: l) with ([x] ++ l). rewrite sum_nbytes_app. destruct x; reflexivity. Qed.

  Lemma total_io (ins : list (option nat)) (args result : list (arr A)) : Forall wf args -> Forall wf result ->
    sum_nbytes (pull_nonbatched ins args ++ map Some result) = io_bytes ins args result.
  Proof.
    intros Wa Wr. rewrite sum_nbytes_app. unfold io_bytes. f_equal.
    - unfold pull_nonbatched. revert ins. induction Wa as [| x args Wx Wa IH]; intros [| a ins]; try reflexivity.
      cbn [map2 fold_right]. rewrite sum_nbytes_cons, IH. destruct a; [| reflexivity]. now rewrite nbytes_bytes.
    - induction Wr as [| x l Wx Wr IH]; [reflexivity |]. cbn [map fold_right].
      rewrite sum_nbytes_cons, IH. now rewrite nbytes_bytes.
  Qed.

  (** bytes per unit of the batched axis *)
  Definition unit_bytes (x : arr A) (axis : option nat) : Z :=
    match axis with
    | Some k => Z.of_nat (prod (remove k (shp x))) * itemsize (dty x)
    | None => 0
    end.

  Lemma bytes_unit x k n : wf x -> nth_error (shp x) k = Some n ->
    bytes x = Z.of_nat n * unit_bytes x (Some k).
  Proof.
    intros W E. unfold bytes, unit_bytes. rewrite W, (prod_remove k n _ E). lia.
  Qed.
  Lemma bytes_slice (x : arr A) k a m : bytes (slice d k a m x) = Z.of_nat m * unit_bytes x (Some k).
  Proof.
    unfold bytes, unit_bytes. rewrite (wf_slice d k a m x). rewrite shp_slice, prod_insert.
    cbn [slice tabulate dty]. lia.
  Qed.

  Definition unit_io (ins outs : list (option nat)) (args result : list (arr A)) : Z :=
    fold_right Z.add 0 (map2 unit_bytes args ins) + fold_right Z.add 0 (map2 unit_bytes result outs).

  Lemma io_bytes_unit ins outs args result n :
    Forall wf args -> Forall wf result -> Forall2 (sized n) args ins -> Forall2 (sized n) result outs ->
    ~ In None outs ->
    io_bytes ins args result = Z.of_nat n * unit_io ins outs args result /\
    forall a m, io_bytes ins (slices d ins a m args) (slices d outs a m result) =
      Z.of_nat m * unit_io ins outs args result.
  Proof.
    intros Wa Wr Fa Fr N. unfold io_bytes, unit_io, slices.
    assert (Ga : fold_right Z.add 0 (map2 (fun x axis => match axis with Some _ => bytes x | None => 0 end) args ins) =
                 Z.of_nat n * fold_right Z.add 0 (map2 unit_bytes args ins) /\
      forall a m, fold_right Z.add 0 (map2 (fun x axis => match axis with Some _ => bytes x | None => 0 end)
          (map2 (fun x axis => match axis with Some k => slice d k a m x | None => x end) args ins) ins) =
        Z.of_nat m * fold_right Z.add 0 (map2 unit_bytes args ins)).
    { induction Fa as [| x axis args ins Sx Fa IH]; [split; [| intros]; cbn; lia |].
      inversion Wa as [| ? ? Wx Wa']; subst. destruct (IH Wa') as [I1 I2]. cbn [map2 fold_right].
      destruct axis as [k |].
      - split; [rewrite I1, (bytes_unit x k n) by (auto; now apply Sx); lia |].
        intros a m. rewrite I2, bytes_slice. lia.
      - split; [rewrite I1; cbn [unit_bytes]; lia |]. intros a m. rewrite I2. cbn [unit_bytes]. lia. }
    assert (Gr : fold_right Z.add 0 (map bytes result) = Z.of_nat n * fold_right Z.add 0 (map2 unit_bytes result outs) /\
      forall a m, fold_right Z.add 0 (map bytes
          (map2 (fun x axis => match axis with Some k => slice d k a m x | None => x end) result outs)) =
        Z.of_nat m * fold_right Z.add 0 (map2 unit_bytes result outs)).
    { clear Ga. induction Fr as [| x axis result outs Sx Fr IH]; [split; [| intros]; cbn; lia |].
      inversion Wr as [| ? ? Wx Wr']; subst.
      destruct (IH Wr' ltac:(intros Q; apply N; now right)) as [I1 I2]. cbn [map2 map fold_right].
      destruct axis as [k |]; [| exfalso; apply N; now left].
      split; [rewrite I1, (bytes_unit x k n) by (auto; now apply Sx); lia |].
      intros a m. rewrite I2, bytes_slice. lia. }
    destruct Ga as [G1 G2], Gr as [G3 G4]. split; [rewrite G1, G3; lia |].
    intros a m. rewrite G2, G4. lia.
  Qed.

  Lemma unit_io_nonneg ins outs args result : (forall x, In x (args ++ result) -> 0 <= itemsize (dty x)) ->
    0 <= unit_io ins outs args result.
  Proof.
    intros H. unfold unit_io.
    assert (G : forall l axes, (forall x : arr A, In x l -> 0 <= itemsize (dty x)) ->
      0 <= fold_right Z.add 0 (map2 unit_bytes l axes)).
    { induction l as [| x l IH]; intros [| a axes] Hl; cbn [map2 fold_right]; try lia.
      specialize (IH axes ltac:(intros; apply Hl; now right)). specialize (Hl x (or_introl eq_refl)).
      destruct a; cbn [unit_bytes]; nia. }
    pose proof (G args ins ltac:(intros; apply H, in_or_app; now left)).
    pose proof (G result outs ltac:(intros; apply H, in_or_app; now right)). lia.
  Qed.
End Bytes.

(** ** The batched function *)
Section Batched.
  Context {A : Type} (d : A).

  Lemma nth_map2_d B C D (f : B -> C -> D) l l' k db dc dd : (k < length l)%nat -> (k < length l')%nat ->
    nth k (map2 f l l') dd = f (nth k l db) (nth k l' dc).
  Proof.
    revert l l'. induction k as [| k IH]; intros [| x l] [| y l'] H H'; cbn [length] in *; try lia; cbn [map2 nth]; auto.
    apply IH; lia.
  Qed.

  Lemma nth_seq_map B (h : nat -> B) n k dd : (k < n)%nat -> nth k (map h (seq 0 n)) dd = h k.
  Proof.
    intros H. rewrite (nth_indep _ dd (h O)) by (rewrite map_length, seq_length; exact H).
    rewrite map_nth, seq_nth by exact H. reflexivity.
  Qed.

  Lemma sizes_sized n (axes : list (option nat)) (tree : list (arr A)) : Forall2 (sized n) tree axes ->
    exists c, sizes axes tree = Some (repeat n c) /\ ((exists k, In (Some k) axes) -> (0 < c)%nat).
  Proof.
    induction 1 as [| x a tree axes H F (c & E & P)].
    - exists 0%nat. split; [reflexivity |]. intros [k []].
    - destruct a as [k |]; cbn [sizes].
      + rewrite (H k eq_refl), E. exists (S c). split; [reflexivity | lia].
      + exists c. split; [exact E |]. intros [k [K | K]]; [discriminate | eauto].
  Qed.

  Lemma extract_sized n (axes : list (option nat)) (tree : list (arr A)) : Forall2 (sized n) tree axes ->
    (exists k, In (Some k) axes) -> extract_size axes tree = Some n.
  Proof.
    intros F K. destruct (sizes_sized n axes tree F) as (c & E & P). specialize (P K).
    unfold extract_size. rewrite E. destruct c as [| c]; [lia |]. cbn [repeat].
    replace (forallb (Nat.eqb n) (n :: repeat n c)) with true; [reflexivity |].
    symmetry. apply forallb_forall. intros x Hx. apply Nat.eqb_eq.
    destruct Hx as [-> | Hx]; [reflexivity |]. now apply repeat_spec in Hx.
  Qed.

  (** One step of the loop *)
  Lemma batch_args nb m j (ins : list (option nat)) (args : list (arr A)) :
    Forall wf args -> Forall2 (sized (nb * m)) args ins -> (j < nb)%nat ->
    push_nonbatched ins
      (move_axes_in d ins (map (option_map (fun x => row x j))
        (map (option_map (batch nb)) (move_axes_out d ins (pull_nonbatched ins args))))) args =
    slices d ins (j * m) m args.
  Proof.
    intros W F Hj. unfold push_nonbatched, move_axes_in, move_axes_out, on_axes, pull_nonbatched, slices.
    induction F as [| x a args ins Sx F IH]; [reflexivity |].
    inversion W as [| ? ? Wx W']; subst. cbn [map2 map]. rewrite IH by exact W'. f_equal.
    destruct a as [k |]; [| reflexivity]. cbn [option_map]. apply batch_slice; auto.
  Qed.

  Lemma slice_all k n x : wf x -> nth_error (shp x) k = Some n -> slice d k 0 n x = x.
  Proof.
    intros W E. assert (Hk : (k < length (shp x))%nat) by (apply nth_error_Some; congruence).
    pose proof (nth_error_nth _ _ 0%nat E) as E'.
    assert (S : shp (slice d k 0 n x) = shp x) by (rewrite shp_slice, <- E'; now apply insert_remove).
    apply (arr_ext d); auto using wf_slice. intros idx H. rewrite S in H. unfold slice.
    rewrite get_tabulate by (rewrite <- shp_slice with (d := d) (a := 0%nat); now rewrite S).
    f_equal. cbn [Nat.add]. apply insert_remove. now rewrite (within_length _ _ H).
  Qed.

  Lemma slices_all n (axes : list (option nat)) (xs : list (arr A)) : Forall wf xs -> Forall2 (sized n) xs axes ->
    slices d axes 0 n xs = xs.
  Proof.
    intros W F. unfold slices. induction F as [| x a xs axes Sx F IH]; [reflexivity |].
    inversion W; subst. cbn [map2]. rewrite IH by assumption. f_equal. destruct a; [| reflexivity].
    apply slice_all; auto.
  Qed.

  Lemma check_same_refl (l : list (arr A)) : check_same l l = true.
  Proof.
    unfold check_same. rewrite Nat.eqb_refl. cbn [andb]. apply forallb_forall. intros [x y] H.
    assert (E : x = y).
    { clear -H. induction l as [| z l IH]; [destruct H |]. cbn [map2] in H. destruct H as [H | H]; [congruence | auto]. }
    subst y. cbn [fst snd]. destruct (list_eq_dec _ _ _); [| congruence]. cbn [andb].
    unfold dtype_eqb. now rewrite String.eqb_refl, Z.eqb_refl.
  Qed.

  Lemma flat_map_Some (l : list (arr A)) :
    flat_map (fun x => match x with Some x => [x] | None => [] end) (map Some l) = l.
  Proof. induction l; cbn; congruence. Qed.

  Lemma nth_all_outs (outs : list (option nat)) k : ~ In None outs -> (k < length outs)%nat ->
    exists ax, nth k outs None = Some ax.
  Proof.
    intros N H. destruct (nth k outs None) eqn:E; eauto. exfalso. apply N. rewrite <- E. now apply nth_In.
  Qed.

  Lemma loops_result func (ins outs : list (option nat)) (args : list (arr A)) nb m : (0 < nb)%nat ->
    valid_call func ins outs (nb * m) args -> independent d func ins outs (nb * m) args ->
    exists result,
      scan (loop d func ins outs args) nb (length (func args))
        (map (option_map (batch nb)) (move_axes_out d ins (pull_nonbatched ins args))) = Some result /\
      move_axes_in d outs (map (option_map unbatch) result) = map Some (func args).
  Proof.
    intros Hnb V I. destruct V as [Wa Wr Hi Fa Fr Hb No].
    unfold scan.
    match goal with |- context [if ?c then _ else _] => replace c with false end.
    2: { symmetry. clear -Fa Hb. destruct Hb as [k Hk]. unfold move_axes_out, on_axes, pull_nonbatched.
      induction Fa as [| x a args ins Sx F IH]; [destruct Hk |]. cbn [map2 map forallb].
      destruct Hk as [-> | Hk]; [reflexivity |]. rewrite (IH Hk). apply andb_false_r. }
    eexists. split; [reflexivity |].
    set (Y := func args) in *.
    assert (LO : length outs = length Y) by (clear -Fr; induction Fr; cbn [length]; congruence).
    set (results := map (fun j => loop d func ins outs args (map (option_map (fun x => row x j))
         (map (option_map (batch nb)) (move_axes_out d ins (pull_nonbatched ins args))))) (seq 0 nb)).
    assert (ER : results = map (fun j => move_axes_out d outs (map Some (slices d outs (j * m) m Y))) (seq 0 nb)).
    { apply map_ext_in. intros j Hj. apply in_seq in Hj. unfold loop. rewrite (batch_args nb m) by (auto; lia).
      destruct (Nat.eq_dec m 0) as [-> | Nm].
      - rewrite Nat.mul_0_r in *. now rewrite !slices_all.
      - rewrite I by nia. reflexivity. }
    assert (EN : forall j k ax x, (k < length Y)%nat -> nth k outs None = Some ax ->
      nth k (move_axes_out d outs (map Some (slices d outs (j * m) m Y))) None =
      Some (moveaxis d (slice d ax (j * m) m (nth k Y x)) ax 0)).
    { intros j k ax x Hk Ek. unfold move_axes_out, on_axes.
      assert (Ls : length (slices d outs (j * m) m Y) = length Y).
      { unfold slices. rewrite length_map2. lia. }
      rewrite (nth_map2_d _ _ _ _ _ _ _ None None) by (rewrite ?map_length; lia).
      rewrite (nth_indep _ None (Some x)) by (rewrite map_length; lia). rewrite map_nth.
      unfold slices. rewrite (nth_map2_d _ _ _ _ _ _ _ x None) by lia. now rewrite Ek. }
    rewrite map_map. unfold move_axes_in, on_axes.
    assert (x0 : arr A) by exact (mkarr [] (mkdtype EmptyString 0) []).
    apply nth_ext with (d := None) (d' := None).
    - rewrite length_map2, !map_length, seq_length. lia.
    - intros k Hk. rewrite length_map2, map_length, seq_length in Hk.
      destruct (nth_all_outs outs k No ltac:(lia)) as [ax Ek].
      rewrite (nth_map2_d _ _ _ _ _ _ _ None None) by (rewrite ?map_length, ?seq_length; lia).
      rewrite (nth_indep (map Some Y) None (Some x0)) by (rewrite map_length; lia). rewrite map_nth.
      rewrite nth_seq_map by lia.
      cbv beta. rewrite Ek, ER.
      assert (EH : hd [] (map (fun j => move_axes_out d outs (map Some (slices d outs (j * m) m Y))) (seq 0 nb)) =
                   move_axes_out d outs (map Some (slices d outs (0 * m) m Y))).
      { destruct nb; [lia | reflexivity]. }
      rewrite EH, (EN 0%nat k ax x0) by (auto; lia). cbn [option_map]. f_equal.
      rewrite map_map.
      rewrite (map_ext_in _ (fun j => moveaxis d (slice d ax (j * m) m (nth k Y x0)) ax 0)).
      + apply unbatch_slices; auto.
        * eapply Forall_forall; [exact Wr |]. apply nth_In. lia.
        * assert (S : sized (nb * m) (nth k Y x0) (nth k outs None)).
          { clear -Fr Hk LO. revert k Hk. induction Fr as [| y a Y outs Sy F IH]; intros k Hk; cbn in *; [lia |].
            destruct k as [| k]; [exact Sy |]. apply IH; lia. }
          now apply S.
      + intros j _. now rewrite (EN j k ax x0) by (auto; lia).
  Qed.
End Batched.
