(** Proofs about the cutpoints. *)
From Coq Require Import ZArith List Bool Lia Sorted.
From Verif Require Import Base LemBase ModelJaxext ModelPrep SpecPrep ProofSampling ProofUnique.
Import ListNotations.
Open Scope Z_scope.

Lemma round_bounds num den : 0 < den ->
  2 * den * round_half_even num den - den <= 2 * num <= 2 * den * round_half_even num den + den.
Proof.
  intros Hd. unfold round_half_even.
  pose proof (Z.div_mod (2 * num + den) (2 * den) ltac:(lia)) as E.
  pose proof (Z.mod_pos_bound (2 * num + den) (2 * den) ltac:(lia)) as B.
  destruct (Z.eqb_spec ((2 * num + den) mod (2 * den)) 0) as [E0 | N]; cbn [andb]; [| lia].
  destruct (Z.odd _); lia.
Qed.

Section Indices.
  Variable lin : Z -> Z -> Z -> Z.
  Variable even : Z -> Z -> Z -> Prop.
  Variables L m : Z.

  (** Position of cutpoint [k] among the midpoints, with a cutpoint before the
      first and one after the last *)
  Definition jx (k : Z) : Z :=
    if m <? L then if k <? 0 then -1 else if k <? m then lin L m k else L else k.

  Record good_grid : Prop := {
    g_step : forall k, -1 <= k < Z.min L m -> jx k < jx (k + 1);
    g_even : forall k, 0 <= k <= Z.min L m -> even (jx k - jx (k - 1)) (Z.min L m + 1) (L + 1)
  }.

  Hypothesis HL : 0 <= L.
  Hypothesis Hm : 0 <= m.
  Hypothesis G : good_grid.
  Let ms := Z.min L m.

  Lemma jx_first : jx (-1) = -1.
  Proof using. unfold jx. now destruct (m <? L). Qed.

  Lemma jx_last : jx ms = L.
  Proof using HL Hm.
    unfold jx, ms. destruct (Z.ltb_spec m L) as [H | H]; [| lia]. rewrite Z.min_r by lia.
    destruct (Z.ltb_spec m 0); [lia |]. now rewrite Z.ltb_irrefl.
  Qed.

  Lemma jx_lt k k' : -1 <= k < k' -> k' <= ms -> jx k < jx k'.
  Proof using G.
    intros H. replace k' with (k + 1 + Z.of_nat (Z.to_nat (k' - k - 1))) by lia.
    generalize (Z.to_nat (k' - k - 1)) as c.
    induction c as [| c IH]; intros Hc.
    - rewrite Z.add_0_r in *. apply (g_step G). unfold ms in *. lia.
    - eapply Z.lt_trans; [apply IH; lia |].
      replace (k + 1 + Z.of_nat (S c)) with (k + 1 + Z.of_nat c + 1) by lia. apply (g_step G). unfold ms in *. lia.
  Qed.

  Lemma jx_range k : 0 <= k < ms -> 0 <= jx k < L.
  Proof using HL Hm G.
    intros H. pose proof (jx_lt (-1) k ltac:(lia) ltac:(lia)) as H1. rewrite jx_first in H1.
    pose proof (jx_lt k ms ltac:(lia) ltac:(lia)) as H2. rewrite jx_last in H2. lia.
  Qed.
End Indices.

(** Exact arithmetic *)
Lemma exact_good L m : 0 <= L -> 0 <= m -> good_grid exact_lin evenly L m.
Proof.
  intros HL Hm.
  assert (B : forall k, -1 <= k <= Z.min L m -> m < L ->
    2 * (m + 1) * jx exact_lin L m k - (m + 1) <= 2 * ((L + 1) * (k + 1) - (m + 1)) <=
    2 * (m + 1) * jx exact_lin L m k + (m + 1)).
  { intros k Hk H. unfold jx. destruct (Z.ltb_spec m L); [| lia].
    destruct (Z.ltb_spec k 0); [assert (k = -1) by lia; subst; lia |].
    destruct (Z.ltb_spec k m); [apply round_bounds; lia | assert (k = m) by lia; subst; lia]. }
  constructor; intros k Hk.
  - destruct (Z.lt_ge_cases m L) as [H | H].
    + pose proof (B k ltac:(lia) H) as B1. pose proof (B (k + 1) ltac:(lia) H) as B2.
      set (q := jx _ _ _ k) in *. set (q' := jx _ _ _ (k + 1)) in *.
      assert (0 < 2 * (m + 1) * (q' - q)) by lia. nia.
    + unfold jx. destruct (Z.ltb_spec m L); lia.
  - unfold evenly. apply Z.abs_lt. destruct (Z.lt_ge_cases m L) as [H | H].
    + rewrite Z.min_r in * by lia.
      pose proof (B k ltac:(lia) H) as B1. pose proof (B (k - 1) ltac:(lia) H) as B2.
      set (q := jx _ _ _ k) in *. set (q' := jx _ _ _ (k - 1)) in *.
      (* two points at an integer distance can not be both half-integers *)
      assert (G : (q - q') * (m + 1) - (L + 1) <> m + 1).
      { intros E. assert (EL : L + 1 = (m + 1) * (q - q' - 1)) by lia.
        assert (T : 2 * ((L + 1) * (k + 1)) = (m + 1) * (2 * q + 1)) by lia.
        rewrite EL in T. assert (T' : (m + 1) * (2 * ((q - q' - 1) * (k + 1))) = (m + 1) * (2 * q + 1)) by lia.
        apply Z.mul_reg_l in T'; lia. }
      assert (G' : (q - q') * (m + 1) - (L + 1) <> - (m + 1)).
      { intros E. assert (EL : L + 1 = (m + 1) * (q - q' + 1)) by lia.
        assert (T : 2 * ((L + 1) * (k + 1)) = (m + 1) * (2 * q + 3)) by lia.
        rewrite EL in T. assert (T' : (m + 1) * (2 * ((q - q' + 1) * (k + 1))) = (m + 1) * (2 * q + 3)) by lia.
        apply Z.mul_reg_l in T'; lia. }
      lia.
    + rewrite Z.min_l by lia. unfold jx. destruct (Z.ltb_spec m L); lia.
Qed.

(** With errors, if there are not too many cutpoints *)
Lemma near_good lin n L m : near_quantiles lin n -> 0 <= L < n -> 0 <= m < 2 ^ 9 -> good_grid lin nearly_evenly L m.
Proof.
  intros N HL Hm.
  assert (B : forall k, -1 <= k <= Z.min L m -> m < L ->
    2 ^ 21 * (m + 1) * jx lin L m k - (m + 1) * (2 ^ 20 + L + 2) <= 2 ^ 21 * ((L + 1) * (k + 1) - (m + 1)) <=
    2 ^ 21 * (m + 1) * jx lin L m k + (m + 1) * (2 ^ 20 + L + 2)).
  { intros k Hk H. unfold jx. destruct (Z.ltb_spec m L); [| lia].
    destruct (Z.ltb_spec k 0); [assert (k = -1) by lia; subst; nia |].
    destruct (Z.ltb_spec k m); [| assert (k = m) by lia; subst; nia].
    specialize (N L m k ltac:(lia) ltac:(lia)). nia. }
  constructor; intros k Hk.
  - destruct (Z.lt_ge_cases m L) as [H | H].
    + pose proof (B k ltac:(lia) H) as B1. pose proof (B (k + 1) ltac:(lia) H) as B2.
      set (q := jx _ _ _ k) in *. set (q' := jx _ _ _ (k + 1)) in *.
      assert (E : (m + 1) * (L + 2) < 2 ^ 20 * (L - m)).
      { assert (T1 : (m + 1) * (L + 2) <= 2 ^ 9 * (L + 2)) by nia.
        assert (T2 : L + 2 <= 2 ^ 10 * (L - m)) by lia. lia. }
      assert (0 < 2 ^ 21 * (m + 1) * (q' - q)) by lia. nia.
    + unfold jx. destruct (Z.ltb_spec m L); lia.
  - unfold nearly_evenly. destruct (Z.lt_ge_cases m L) as [H | H].
    + rewrite Z.min_r in * by lia.
      pose proof (B k ltac:(lia) H) as B1. pose proof (B (k - 1) ltac:(lia) H) as B2.
      set (q := jx _ _ _ k) in *. set (q' := jx _ _ _ (k - 1)) in *.
      assert (Z.abs (2 ^ 21 * ((q - q') * (m + 1) - (L + 1))) <= 2 * ((m + 1) * (2 ^ 20 + L + 2))) by (apply Z.abs_le; lia).
      rewrite Z.abs_mul in H0. lia.
    + rewrite Z.min_l by lia. unfold jx. destruct (Z.ltb_spec m L); nia.
Qed.

Lemma arange_split a b : 0 <= a -> 0 <= b -> arange (a + b) = arange a ++ map (Z.add a) (arange b).
Proof.
  intros Ha Hb. unfold arange. rewrite Z2Nat.inj_add by lia. rewrite seq_app, map_app. f_equal.
  rewrite map_map. cbn [plus]. rewrite <- (Nat.add_0_r (Z.to_nat a)) at 1. 
  generalize (Z.to_nat b) 0%nat. intros c. induction c as [| c IH]; intros s; cbn [seq map]; auto.
  f_equal; [lia |]. rewrite <- IH. now rewrite <- plus_n_Sm.
Qed.

Lemma In_arange i n : In i (arange n) <-> 0 <= i < n.
Proof.
  unfold arange. rewrite in_map_iff. split.
  - intros (k & <- & H). apply in_seq in H. lia.
  - intros H. exists (Z.to_nat i). split; [lia |]. apply in_seq. lia.
Qed.

Lemma map_arange_increasing A (lt : A -> A -> bool) f n :
  (forall i j, 0 <= i < j -> j < n -> lt (f i) (f j) = true) -> increasing lt (map f (arange n)).
Proof.
  intros H. unfold arange. rewrite map_map.
  assert (G : forall c s, (Z.of_nat (s + c) <= Z.max 0 n) ->
    increasing lt (map (fun i => f (Z.of_nat i)) (seq s c))).
  { induction c as [| c IH]; intros s Hs; cbn [seq map]; [constructor |].
    constructor; [apply IH; lia |]. apply Forall_forall. intros z Hz.
    apply in_map_iff in Hz as (j & <- & Hj). apply in_seq in Hj. apply H; lia. }
  apply G. lia.
Qed.

Section Sorted.
  Context {A : Type} {lt eqb : A -> A -> bool} {TO : total_order lt eqb}.

  Lemma increasing_nth d l : increasing lt l -> forall i j, 0 <= i < j -> j < zlen l ->
    lt (zget d l i) (zget d l j) = true.
  Proof.
    intros I. induction I as [| a l SS IH Fa]; intros i j Hi Hj; [rewrite zlen_nil in Hj; lia |].
    rewrite zlen_cons in Hj. unfold zget in *.
    replace (Z.to_nat j) with (S (Z.to_nat (j - 1))) by lia. cbn [nth].
    destruct (Z.eq_dec i 0) as [-> | N].
    - cbn [Z.to_nat nth]. rewrite Forall_forall in Fa. apply Fa. apply nth_In. unfold zlen in Hj. lia.
    - replace (Z.to_nat i) with (S (Z.to_nat (i - 1))) by lia. cbn [nth]. apply IH; lia.
  Qed.

  Lemma nth_lt_iff d l : increasing lt l -> forall i j, 0 <= i < zlen l -> 0 <= j < zlen l ->
    (lt (zget d l i) (zget d l j) = true <-> i < j).
  Proof.
    intros I i j Hi Hj. split.
    - intros H. destruct (Z.lt_trichotomy i j) as [Q | [Q | Q]]; auto; exfalso.
      + subst. now rewrite o_irrefl in H.
      + pose proof (increasing_nth d l I j i ltac:(lia) ltac:(lia)) as Hlt.
        apply lt_asym in Hlt. congruence.
    - intros H. apply increasing_nth; auto; lia.
  Qed.

  Lemma In_zget d (l : list A) v : In v l <-> exists i, 0 <= i < zlen l /\ zget d l i = v.
  Proof.
    split.
    - intros H. apply In_nth with (d := d) in H as (i & Hi & <-). exists (Z.of_nat i).
      unfold zget, zlen. rewrite Nat2Z.id. split; [lia | auto].
    - intros (i & Hi & <-). apply zget_In. exact Hi.
  Qed.
End Sorted.

Section Mid.
  Context {A : Type} {lt eqb : A -> A -> bool} {TO : total_order lt eqb} (mode : oob A).
  Variables (lin : Z -> Z -> Z -> Z) (even : Z -> Z -> Z -> Prop).
  Variables (x u mids : list A) (huge d : A) (L m : Z).
  Hypothesis GG : good_grid lin even L m.
  Hypothesis Hx : 1 <= zlen x.
  Hypothesis DV : distinct_values lt x u.
  Hypothesis Hu : zlen u = L + 1.
  Hypothesis HL : 0 <= L <= zlen mids.
  Hypothesis Hmids : zlen mids < 2 ^ 64.
  Hypothesis Hm : 0 <= m <= zlen mids.
  Hypothesis mids_sep : forall i, 0 <= i < L -> separates lt (zget d mids i) (zget d u i) (zget d u (i + 1)).
  Hypothesis mids_huge : forall i, L <= i < zlen mids -> zget d mids i = huge.
  Let ms := Z.min L m.
  Let res := choose_midpoints mode lin mids L m.
  Let cut (k : Z) : A := zget d mids (jx lin L m k).

  Lemma choose_max_split : snd res = ms.
  Proof.
    unfold res, choose_midpoints. cbn [snd]. apply wrap_small. fold ms. unfold ms.
    split; [lia |]. pose proof (minimal_unsigned_bits_fits m ltac:(lia)). lia.
  Qed.

  Lemma choose_splits : fst res = map cut (arange ms) ++ repeat huge (Z.to_nat (m - ms)).
  Proof.
    unfold res, choose_midpoints. cbn [fst].
    destruct (Z.ltb_spec m L) as [H | H].
    - assert (E : ms = m) by (unfold ms; lia). rewrite E, Z.sub_diag. cbn [Z.to_nat repeat].
      rewrite app_nil_r. unfold quantile_indices. rewrite map_map. apply map_ext_in.
      intros k Hk. apply In_arange in Hk.
      pose proof (jx_range lin even L m ltac:(lia) ltac:(lia) GG k ltac:(fold ms; lia)) as R.
      unfold cut. assert (J : jx lin L m k = lin L m k).
      { unfold jx. destruct (Z.ltb_spec m L); [| lia]. destruct (Z.ltb_spec k 0); [lia |].
        destruct (Z.ltb_spec k m); [auto | lia]. }
      rewrite <- J. rewrite wrap_small.
      + apply gather_in. lia.
      + split; [lia |]. pose proof (minimal_unsigned_bits_fits (zlen mids - 1) ltac:(lia)). lia.
    - assert (E : ms = L) by (unfold ms; lia). rewrite E.
      apply list_ext with (d := d).
      + rewrite zlen_app, zlen_map. unfold zlen at 1 3. rewrite firstn_length, repeat_length.
        rewrite (zlen_arange L) by lia. unfold zlen in *. lia.
      + intros i Hi.
        assert (Hi' : 0 <= i < m) by (unfold zlen in *; rewrite firstn_length in Hi; lia).
        assert (G : zget d (firstn (Z.to_nat m) mids) i = zget d mids i).
        { unfold zget. rewrite <- (firstn_skipn (Z.to_nat m) mids) at 2.
          rewrite app_nth1; auto. rewrite firstn_length. unfold zlen in *. lia. }
        rewrite G. destruct (Z.lt_ge_cases i L) as [Q | Q].
        * rewrite zget_app_l by (rewrite zlen_map, zlen_arange; lia).
          rewrite (zget_map _ _ _ 0) by (rewrite zlen_arange; lia). rewrite zget_arange by lia.
          unfold cut, jx. destruct (Z.ltb_spec m L); [lia | auto].
        * rewrite mids_huge by lia. unfold zget. rewrite app_nth2.
          -- rewrite map_length, length_arange.
             symmetry. apply (repeat_spec (Z.to_nat (m - L))). apply nth_In. rewrite repeat_length. lia.
          -- rewrite map_length, length_arange. lia.
  Qed.

  Lemma length_cuts : length (map cut (arange ms)) = Z.to_nat ms.
  Proof. now rewrite map_length, length_arange. Qed.

  Lemma ms_range : 0 <= ms <= m.
  Proof. unfold ms. lia. Qed.

  Lemma choose_length : zlen (fst res) = m.
  Proof.
    rewrite choose_splits, zlen_app, zlen_map, zlen_arange by apply ms_range.
    unfold zlen. rewrite repeat_length. pose proof ms_range. lia.
  Qed.

  Lemma choose_used : firstn (Z.to_nat ms) (fst res) = map cut (arange ms).
  Proof.
    rewrite choose_splits. rewrite <- length_cuts at 1. rewrite firstn_app, Nat.sub_diag, firstn_all.
    cbn [firstn]. apply app_nil_r.
  Qed.

  Lemma choose_unused c : In c (skipn (Z.to_nat ms) (fst res)) -> c = huge.
  Proof.
    rewrite choose_splits. rewrite <- length_cuts at 1. rewrite skipn_app, skipn_all, Nat.sub_diag.
    cbn [skipn app]. apply repeat_spec.
  Qed.

  (** u_j <= cut k  iff  j <= jx k *)
  Lemma cut_below k j : 0 <= k < ms -> 0 <= j <= L -> (lt (cut k) (zget d u j) = true <-> jx lin L m k < j).
  Proof.
    intros Hk Hj. pose proof (jx_range lin even L m ltac:(lia) ltac:(lia) GG k Hk) as R.
    destruct (mids_sep (jx lin L m k) R) as [P1 P2]. unfold cut. split.
    - intros H. destruct (Z.lt_ge_cases (jx lin L m k) j) as [Q | Q]; auto. exfalso.
      destruct (Z.eq_dec j (jx lin L m k)) as [-> | N]; [congruence |].
      pose proof (increasing_nth d u (proj1 DV) j (jx lin L m k) ltac:(lia) ltac:(lia)) as Hlt.
      pose proof (o_trans _ _ _ H Hlt). congruence.
    - intros H. destruct (Z.eq_dec j (jx lin L m k + 1)) as [-> | N]; auto.
      eapply o_trans; [exact P2 |]. apply increasing_nth; [apply DV | lia | lia].
  Qed.

  Lemma cuts_increasing : increasing lt (map cut (arange ms)).
  Proof.
    apply map_arange_increasing. intros i j Hi Hj.
    pose proof (jx_lt lin even L m GG i j ltac:(lia) ltac:(fold ms; lia)) as J.
    pose proof (jx_range lin even L m ltac:(lia) ltac:(lia) GG i ltac:(fold ms; lia)) as R.
    pose proof (jx_range lin even L m ltac:(lia) ltac:(lia) GG j ltac:(fold ms; lia)) as R'.
    pose proof (proj2 (cut_below i (jx lin L m j) ltac:(lia) ltac:(lia)) J) as H1.
    destruct (mids_sep (jx lin L m j) R') as [S1 _]. fold (cut j) in S1.
    eapply lt_nlt_trans; [exact H1 | exact S1].
  Qed.

  Lemma value_index v : In v x -> exists j, 0 <= j <= L /\ zget d u j = v.
  Proof.
    intros H. apply (proj2 DV) in H. apply (In_zget d) in H as (j & Hj & E). exists j. split; auto; lia.
  Qed.
  Lemma index_value j : 0 <= j <= L -> In (zget d u j) x.
  Proof. intros H. apply (proj2 DV). apply zget_In. lia. Qed.

  Lemma cut_separates k : 0 <= k < ms -> exists a b, consecutive lt x a b /\ separates lt (cut k) a b.
  Proof.
    intros Hk. pose proof (jx_range lin even L m ltac:(lia) ltac:(lia) GG k Hk) as R.
    exists (zget d u (jx lin L m k)), (zget d u (jx lin L m k + 1)). split; [| now apply mids_sep].
    split; [apply index_value; lia |]. split; [apply index_value; lia |].
    split; [apply increasing_nth; [apply DV | lia | lia] |].
    intros c Hc. destruct (value_index c Hc) as (j & Hj & <-).
    destruct (lt (zget d u (jx lin L m k)) (zget d u j)) eqn:E1; auto.
    destruct (lt (zget d u j) (zget d u (jx lin L m k + 1))) eqn:E2; auto. exfalso.
    apply (nth_lt_iff d u (proj1 DV)) in E1; [| lia | lia].
    apply (nth_lt_iff d u (proj1 DV)) in E2; lia.
  Qed.

  Lemma all_separated : L <= m -> forall a b, In a x -> In b x -> lt a b = true ->
    exists c, In c (map cut (arange ms)) /\ separates lt c a b.
  Proof.
    intros H a b Ha Hb Hab. destruct (value_index a Ha) as (i & Hi & <-).
    destruct (value_index b Hb) as (j & Hj & <-).
    apply (nth_lt_iff d u (proj1 DV)) in Hab; [| lia | lia].
    assert (E : ms = L) by (unfold ms; lia).
    exists (cut i). split; [apply in_map; apply In_arange; lia |].
    assert (J : jx lin L m i = i) by (unfold jx; destruct (Z.ltb_spec m L); [lia | auto]).
    split.
    - destruct (lt (cut i) (zget d u i)) eqn:Q; auto. apply cut_below in Q; lia.
    - apply cut_below; lia.
  Qed.

  Lemma nth_error_cuts k : 0 <= k -> nth_error (map cut (arange ms)) (Z.to_nat k) =
    if k <? ms then Some (cut k) else None.
  Proof.
    intros Hk. destruct (Z.ltb_spec k ms) as [H | H].
    - apply map_nth_error. unfold arange. rewrite (map_nth_error _ _ _ (d := Z.to_nat k)); [f_equal; lia |].
      rewrite nth_error_nth' with (d := 0%nat) by (rewrite seq_length; lia).
      rewrite seq_nth by lia. reflexivity.
    - apply nth_error_None. rewrite length_cuts. lia.
  Qed.

  (** the distinct values in bin k are those from jx (k-1) + 1 to jx k *)
  Lemma bin_values k : 0 <= k <= ms ->
    exists l, distinct_values lt l l /\ zlen l = jx lin L m k - jx lin L m (k - 1) /\
      forall v, In v l <-> In v x /\ in_bin lt (map cut (arange ms)) k v.
  Proof.
    intros Hk.
    assert (J1 : -1 <= jx lin L m (k - 1)).
    { destruct (Z.eq_dec k 0) as [-> | N].
      - change (0 - 1) with (-1). rewrite jx_first. lia.
      - pose proof (jx_range lin even L m ltac:(lia) ltac:(lia) GG (k - 1) ltac:(fold ms; lia)). lia. }
    assert (J2 : jx lin L m k <= L).
    { destruct (Z.eq_dec k ms) as [-> | N].
      - unfold ms. rewrite jx_last by lia. lia.
      - pose proof (jx_range lin even L m ltac:(lia) ltac:(lia) GG k ltac:(fold ms; lia)). lia. }
    pose proof (jx_lt lin even L m GG (k - 1) k ltac:(lia) ltac:(fold ms; lia)) as J3.
    set (a := jx lin L m (k - 1) + 1) in *. set (c := jx lin L m k - jx lin L m (k - 1)).
    exists (map (fun i => zget d u (a + i)) (arange c)).
    assert (INC : increasing lt (map (fun i => zget d u (a + i)) (arange c))).
    { apply map_arange_increasing. intros i j Hi Hj. apply increasing_nth; [apply DV | lia | lia]. }
    split; [split; [exact INC | easy] |].
    split; [rewrite zlen_map, zlen_arange; lia |].
    assert (BIN : forall j, 0 <= j <= L -> (in_bin lt (map cut (arange ms)) k (zget d u j) <-> a <= j < a + c)).
    { intros j Hj. unfold in_bin. rewrite length_cuts, Z2Nat.id by (apply ms_range). rewrite (nth_error_cuts k) by (clear - Hk; lia).
      split.
      - intros (_ & B1 & B2). split.
        + destruct (Z.eq_dec k 0) as [E | N].
          * assert (jx lin L m (k - 1) = -1) by (rewrite E; now rewrite jx_first). lia.
          * assert (Hlt : lt (cut (k - 1)) (zget d u j) = true).
            { apply B1; [lia |]. rewrite nth_error_cuts by lia.
              destruct (Z.ltb_spec (k - 1) ms); [auto | lia]. }
            apply cut_below in Hlt; lia.
        + destruct (Z.eq_dec k ms) as [E | N].
          * assert (jx lin L m k = L) by (rewrite E; unfold ms; now rewrite jx_last by lia). lia.
          * assert (Hlt : lt (cut k) (zget d u j) = false).
            { apply B2. destruct (Z.ltb_spec k ms); [auto | lia]. }
            destruct (Z.lt_ge_cases (jx lin L m k) j) as [Q | Q]; [| lia].
            apply cut_below in Q; [congruence | lia | lia].
      - intros B. split; [lia |]. split.
        + intros v Hk1 E. rewrite nth_error_cuts in E by lia.
          destruct (Z.ltb_spec (k - 1) ms); [| discriminate]. injection E as <-.
          apply cut_below; lia.
        + intros v E. destruct (Z.ltb_spec k ms); [| discriminate]. injection E as <-.
          destruct (lt (cut k) (zget d u j)) eqn:Q; auto. apply cut_below in Q; lia. }
    intros v. rewrite in_map_iff. split.
    - intros (i & <- & Hi). apply In_arange in Hi. split; [apply index_value; lia |]. apply BIN; lia.
    - intros [Hv B]. destruct (value_index v Hv) as (j & Hj & <-). apply BIN in B; auto.
      exists (j - a). split; [f_equal; lia | apply In_arange; lia].
  Qed.
End Mid.

Section Row.
  Context {A : Type} {lt eqb : A -> A -> bool} {TO : total_order lt eqb} (mode : oob A).
  Variables (lin : Z -> Z -> Z -> Z) (even : Z -> Z -> Z -> Prop).

  Lemma mid_cutpoints (x u mids : list A) (huge d : A) (max_bins : Z) :
    1 <= zlen x < 2 ^ 64 -> 1 <= max_bins -> distinct_values lt x u -> zlen u <= zlen x ->
    zlen mids = zlen x - 1 ->
    (forall i, 0 <= i < zlen u - 1 -> separates lt (zget d mids i) (zget d u i) (zget d u (i + 1))) ->
    (forall i, zlen u - 1 <= i < zlen mids -> zget d mids i = huge) ->
    good_grid lin even (zlen u - 1) (Z.min max_bins (zlen x) - 1) ->
    let r := choose_midpoints mode lin mids (zlen u - 1) (Z.min max_bins (zlen x) - 1) in
    quantile_cutpoints lt even huge max_bins x (fst r) (snd r).
  Proof.
    intros Hx Hb DV Hu Hm SEP HUGE GG r.
    assert (Hu1 : 1 <= zlen u).
    { destruct x as [| a x]; [rewrite zlen_nil in Hx; lia |].
      assert (H : In a u) by (apply DV; now left). destruct u; [easy |].
      rewrite zlen_cons. pose proof (zlen_nonneg _ u). lia. }
    set (L := zlen u - 1) in *. set (m := Z.min max_bins (zlen x) - 1) in *.
    assert (E : snd r = Z.min L m) by (apply choose_max_split with (mids := mids); lia).
    assert (C : forall u', distinct_values lt x u' -> u' = u) by (intros u' H; eapply distinct_values_unique; eauto).
    assert (U : firstn (Z.to_nat (snd r)) (fst r) = map (fun k => zget d mids (jx lin L m k)) (arange (Z.min L m))).
    { rewrite E. eapply choose_used with (even := even) (huge := huge) (d := d); auto; lia. }
    split.
    - change (zlen (fst r) = m). eapply choose_length with (even := even) (huge := huge) (d := d); auto; lia.
    - intros u' DV'. apply C in DV'. subst u'. rewrite E. unfold L, m, zlen in *. lia.
    - rewrite U. eapply cuts_increasing with (even := even) (u := u) (x := x); auto; lia.
    - rewrite U. intros c Hc. apply in_map_iff in Hc as (k & <- & Hk). apply In_arange in Hk.
      eapply cut_separates with (even := even) (u := u); auto; lia.
    - rewrite E. intros c Hc. eapply choose_unused with (even := even) (huge := huge) (d := d); eauto; lia.
    - intros u' DV'. apply C in DV'. subst u'. intros H a b Ha Hb' Hab. rewrite U.
      eapply all_separated with (even := even) (u := u) (x := x); auto; try lia. unfold L, m, zlen in *. lia.
    - intros u' i DV' Hi. apply C in DV'. subst u'. rewrite U. rewrite E in *.
      destruct (bin_values (lt := lt) lin even x u mids d L m GG DV ltac:(lia) ltac:(lia) ltac:(lia) SEP i Hi)
        as (l & H1 & H2 & H3).
      exists l. split; auto. split; auto.
      fold (zlen l) (zlen u). rewrite H2. replace (zlen u) with (L + 1) by (unfold L; lia).
      now apply (g_even _ _ _ _ GG).
  Qed.
End Row.

Lemma zget_tl A (d : A) l i : 0 <= i -> zget d (tl l) i = zget d l (i + 1).
Proof.
  intros H. unfold zget. replace (Z.to_nat (i + 1)) with (S (Z.to_nat i)) by lia.
  destruct l; cbn; auto. now destruct (Z.to_nat i).
Qed.
Lemma zlen_tl A (l : list A) : 1 <= zlen l -> zlen (tl l) = zlen l - 1.
Proof. destruct l; [rewrite zlen_nil; lia |]. intros _. rewrite zlen_cons. cbn [tl]. lia. Qed.
Lemma zlen_removelast A (l : list A) : 1 <= zlen l -> zlen (removelast l) = zlen l - 1.
Proof.
  intros H. destruct l as [| a l]; [rewrite zlen_nil in H; lia |].
  rewrite (app_removelast_last a (l := a :: l)) at 2 by discriminate.
  rewrite zlen_app. change (zlen [last (a :: l) a]) with 1. lia.
Qed.
Lemma zget_removelast A (d : A) l i : 0 <= i < zlen l - 1 -> zget d (removelast l) i = zget d l i.
Proof.
  intros H. destruct l as [| a l]; [rewrite zlen_nil in H; lia |].
  rewrite (app_removelast_last a (l := a :: l)) at 2 by discriminate.
  rewrite zget_app_l; auto. rewrite zlen_removelast; lia.
Qed.

Lemma zget_padded A (d huge : A) u n i : 0 <= i < Z.of_nat (length u + n) ->
  zget d (u ++ repeat huge n) i = if i <? zlen u then zget d u i else huge.
Proof.
  intros H. destruct (Z.ltb_spec i (zlen u)) as [Q | Q].
  - apply zget_app_l. lia.
  - unfold zget. rewrite app_nth2 by (unfold zlen in Q; lia).
    apply (repeat_spec n). apply nth_In. rewrite repeat_length. unfold zlen in Q. lia.
Qed.

(** Float rows, for any arithmetic whose midpoints are strictly below the upper
    value *)
Section Float.
  Context {A : Type} {lt eqb : A -> A -> bool} {TO : total_order lt eqb} (mode : oob A).
  Variables (lin : Z -> Z -> Z -> Z) (even : Z -> Z -> Z -> Prop).
  Variables (huge : A) (half_sum : A -> A -> A) (P : A -> Prop).
  Hypothesis half_sep : forall a b, P a -> P b -> lt a b = true -> lt b huge = true -> separates lt (half_sum b a) a b.
  Hypothesis half_huge : forall a, half_sum huge a = huge.

  Lemma float_cutpoints x max_bins : 1 <= zlen x < 2 ^ 64 -> 1 <= max_bins ->
    (forall v, In v x -> lt v huge = true) -> (forall v, In v x -> P v) ->
    (forall L, 0 <= L < zlen x -> good_grid lin even L (Z.min max_bins (zlen x) - 1)) ->
    let r := quantilized_row_float lt eqb mode huge lin half_sum x (Z.min max_bins (zlen x) - 1) in
    quantile_cutpoints lt even huge max_bins x (fst r) (snd r).
  Proof.
    intros Hx Hb Hf HP GG. unfold quantilized_row_float.
    destruct (unique_all x (zlen x) huge ltac:(lia)) as (u & DV & -> & Hu). cbv zeta.
    assert (HN : (length u <= length x)%nat) by (unfold zlen in Hu; lia).
    set (w := u ++ repeat huge (Z.to_nat (zlen x) - length u)).
    assert (Hw : zlen w = zlen x).
    { unfold w. rewrite zlen_app. unfold zlen. rewrite repeat_length. lia. }
    assert (G : forall i, 0 <= i < zlen x -> zget huge w i = if i <? zlen u then zget huge u i else huge).
    { intros i Hi. unfold w. apply zget_padded. unfold zlen in *. lia. }
    assert (ML : zlen (map2 half_sum (tl w) (removelast w)) = zlen x - 1).
    { rewrite zlen_map2, zlen_tl, zlen_removelast; lia. }
    assert (M : forall i, 0 <= i < zlen x - 1 ->
      zget huge (map2 half_sum (tl w) (removelast w)) i = half_sum (zget huge w (i + 1)) (zget huge w i)).
    { intros i Hi. rewrite (zget_map2 _ _ _ _ _ huge huge).
      - rewrite zget_tl by lia. rewrite zget_removelast by lia. reflexivity.
      - rewrite zlen_tl; lia.
      - rewrite zlen_removelast; lia. }
    apply mid_cutpoints with (d := huge); auto.
    - intros i Hi. rewrite M by lia. rewrite !G by lia.
      destruct (Z.ltb_spec (i + 1) (zlen u)); [| lia]. destruct (Z.ltb_spec i (zlen u)); [| lia].
      apply half_sep.
      + apply HP, DV, zget_In. lia.
      + apply HP, DV, zget_In. lia.
      + apply increasing_nth; [apply DV | lia | lia].
      + apply Hf. apply DV. apply zget_In. lia.
    - intros i Hi. assert (0 <= i) by (destruct (Z.eq_dec (zlen u) 0) as [E |];
        [| pose proof (zlen_nonneg _ u); lia]; exfalso;
        destruct x as [| a x]; [rewrite zlen_nil in Hx; lia |];
        assert (In a u) by (apply DV; now left); destruct u; [easy | rewrite zlen_cons in E; pose proof (zlen_nonneg _ u); lia]).
      rewrite M by lia. rewrite (G (i + 1)) by lia.
      destruct (Z.ltb_spec (i + 1) (zlen u)); [lia |]. apply half_huge.
    - apply GG. assert (1 <= zlen u); [| lia]. destruct x as [| a x]; [rewrite zlen_nil in Hx; lia |].
      assert (In a u) by (apply DV; now left). destruct u; [easy |]. rewrite zlen_cons. pose proof (zlen_nonneg _ u). lia.
  Qed.
End Float.

(** Integer rows *)
Section Int.
  Lemma int_wrap_small t v : 1 <= it_bits t -> int_min t <= v <= int_max t -> int_wrap t v = v.
  Proof.
    intros Hbits.    unfold int_min, int_max, int_wrap. assert (2 ^ it_bits t = 2 * 2 ^ (it_bits t - 1)).
    { rewrite <- Z.pow_succ_r by lia. f_equal. lia. }
    destruct (it_signed t); intros H'; rewrite Z.mod_small; lia.
  Qed.

  Variables (x64 : bool) (t : itype).
  Hypothesis Hbits : 1 <= it_bits t.
  Hypothesis Hsum : it_signed t = true -> it_bits t <= 32.

  Lemma sum_type_wide : exists s, sum_type x64 t = Some s /\ it_signed s = it_signed t /\ it_bits t <= it_bits s.
  Proof.
    unfold sum_type. destruct (it_signed t) eqn:E; [| exists t; auto with zarith].
    specialize (Hsum eq_refl). destruct (Z.leb_spec (it_bits t) 16).
    - eexists. split; [reflexivity |]. cbn. split; [auto | lia].
    - destruct (Z.leb_spec (it_bits t) 32); [| lia]. eexists. split; [reflexivity |]. cbn. split; [auto | destruct x64; lia].
  Qed.
  Lemma int_sum_small a d : int_min t <= a + d <= int_max t -> int_sum x64 t a d = a + d.
  Proof.
    destruct sum_type_wide as (s & E & Sg & B). unfold int_sum. rewrite E. intros H. apply int_wrap_small; [lia |].
    assert (2 ^ (it_bits t - 1) <= 2 ^ (it_bits s - 1)) by (apply Z.pow_le_mono_r; lia).
    assert (2 ^ it_bits t <= 2 ^ it_bits s) by (apply Z.pow_le_mono_r; lia).
    unfold int_min, int_max in *. rewrite Sg. destruct (it_signed t); lia.
  Qed.
  Lemma int_filler_eq h : int_filler x64 t h = h.
  Proof. unfold int_filler. destruct sum_type_wide as (s & -> & _). reflexivity. Qed.

  Lemma int_midpoint a b : int_min t <= a -> a < b -> b <= int_max t ->
    a <= int_sum x64 t a (ensure_unsigned (it_bits t) (int_wrap t (b - a)) / 2) < b.
  Proof.
    intros Ha Hab Hb.
    assert (P : 2 ^ it_bits t = 2 * 2 ^ (it_bits t - 1)).
    { rewrite <- Z.pow_succ_r by lia. f_equal. lia. }
    assert (P0 : 0 < 2 ^ (it_bits t - 1)) by (apply Z.pow_pos_nonneg; lia).
    assert (D : b - a < 2 ^ it_bits t) by (unfold int_min, int_max in *; destruct (it_signed t); lia).
    assert (E : ensure_unsigned (it_bits t) (int_wrap t (b - a)) = b - a).
    { unfold ensure_unsigned, wrap, int_wrap. destruct (it_signed t).
      - rewrite Zminus_mod_idemp_l. replace (b - a + 2 ^ (it_bits t - 1) - 2 ^ (it_bits t - 1)) with (b - a) by lia.
        apply Z.mod_small. lia.
      - rewrite Z.mod_mod by lia. apply Z.mod_small. lia. }
    rewrite E.
    assert (0 <= (b - a) / 2) by (apply Z.div_pos; lia).
    assert ((b - a) / 2 < b - a) by (apply Z.div_lt; lia).
    rewrite int_sum_small; lia.
  Qed.

  Lemma int_cutpoints_gen lo hi mode lin even x max_bins : 1 <= zlen x < 2 ^ 64 -> 1 <= max_bins ->
    (forall a b, lo <= a -> a < b -> b <= hi ->
      a <= int_sum x64 t a (ensure_unsigned (it_bits t) (int_wrap t (b - a)) / 2) < b) ->
    (forall v, In v x -> lo <= v <= hi) ->
    (forall L, 0 <= L < zlen x -> good_grid lin even L (Z.min max_bins (zlen x) - 1)) ->
    let r := quantilized_row_int x64 t mode lin x (Z.min max_bins (zlen x) - 1) in
    quantile_cutpoints Z.ltb even (int_filler x64 t (int_max t)) max_bins x (fst r) (snd r).
  Proof.
    intros Hx Hb MP Hf GG. unfold quantilized_row_int. cbv zeta.
    destruct (unique_all (lt := Z.ltb) (eqb := Z.eqb) x (zlen x) (int_max t) ltac:(lia)) as (u & DV & -> & Hu).
    assert (HN : (length u <= length x)%nat) by (unfold zlen in Hu; lia).
    set (w := u ++ repeat (int_max t) (Z.to_nat (zlen x) - length u)).
    assert (Hw : zlen w = zlen x).
    { unfold w. rewrite zlen_app. unfold zlen. rewrite repeat_length. lia. }
    assert (G : forall i, 0 <= i < zlen x -> zget 0 w i = if i <? zlen u then zget 0 u i else int_max t).
    { intros i Hi. unfold w. apply zget_padded. unfold zlen in *. lia. }
    assert (U0 : 1 <= zlen u).
    { destruct x as [| a x']; [rewrite zlen_nil in Hx; lia |].
      assert (In a u) by (apply DV; now left). destruct u; [easy | rewrite zlen_cons; pose proof (zlen_nonneg _ u); lia]. }
    assert (LT : zlen (tl w) = zlen x - 1) by (rewrite zlen_tl; lia).
    assert (LR : zlen (removelast w) = zlen x - 1) by (rewrite zlen_removelast; lia).
    set (m1 := map2 _ (removelast w) _).
    assert (L1 : zlen m1 = zlen x - 1) by (unfold m1; rewrite !zlen_map2; lia).
    assert (M1 : forall i, 0 <= i < zlen x - 1 -> zget 0 m1 i =
       int_sum x64 t (zget 0 w i) (ensure_unsigned (it_bits t) (int_wrap t (zget 0 w (i + 1) - zget 0 w i)) / 2)).
    { intros i Hi. unfold m1. rewrite (zget_map2 _ _ _ _ _ 0 0) by (rewrite ?zlen_map2; lia).
      rewrite (zget_map2 _ _ _ _ _ 0 0) by lia.
      rewrite zget_tl by lia. rewrite zget_removelast by lia. reflexivity. }
    set (m2 := map2 _ (arange (zlen m1)) m1).
    assert (L2 : zlen m2 = zlen x - 1) by (unfold m2; rewrite zlen_map2, zlen_arange; lia).
    assert (M2 : forall i, 0 <= i < zlen x - 1 -> zget 0 m2 i = if i <? zlen u - 1 then zget 0 m1 i else int_filler x64 t (int_max t)).
    { intros i Hi. unfold m2. rewrite (zget_map2 _ _ _ _ _ 0 0) by (rewrite ?zlen_arange; lia).
      now rewrite zget_arange by lia. }
    apply (mid_cutpoints (lt := Z.ltb) (eqb := Z.eqb)) with (d := 0); auto.
    - intros i Hi. rewrite M2 by lia. destruct (Z.ltb_spec i (zlen u - 1)); [| lia].
      rewrite M1 by lia. rewrite !G by lia.
      destruct (Z.ltb_spec (i + 1) (zlen u)); [| lia]. destruct (Z.ltb_spec i (zlen u)); [| lia].
      pose proof (increasing_nth (lt := Z.ltb) 0 u (proj1 DV) i (i + 1) ltac:(lia) ltac:(lia)) as H2.
      apply Z.ltb_lt in H2.
      assert (V : forall j, 0 <= j < zlen u -> lo <= zget 0 u j <= hi).
      { intros j Hj. apply Hf. apply DV. apply zget_In. lia. }
      pose proof (MP (zget 0 u i) (zget 0 u (i + 1)) ltac:(apply V; lia) H2 ltac:(apply V; lia)).
      split; [apply Z.ltb_ge | apply Z.ltb_lt]; lia.
    - intros i Hi. rewrite M2 by lia. destruct (Z.ltb_spec i (zlen u - 1)); [lia | auto].
    - apply GG. lia.
  Qed.
  Lemma int_cutpoints mode lin even x max_bins : 1 <= zlen x < 2 ^ 64 -> 1 <= max_bins ->
    (forall v, In v x -> int_min t <= v <= int_max t) ->
    (forall L, 0 <= L < zlen x -> good_grid lin even L (Z.min max_bins (zlen x) - 1)) ->
    let r := quantilized_row_int x64 t mode lin x (Z.min max_bins (zlen x) - 1) in
    quantile_cutpoints Z.ltb even (int_max t) max_bins x (fst r) (snd r).
  Proof.
    intros Hx Hb Hf GG. pose proof (int_cutpoints_gen (int_min t) (int_max t) mode lin even x max_bins Hx Hb) as H.
    rewrite int_filler_eq in H. apply H; auto. intros a b H1 H2 H3. now apply int_midpoint.
  Qed.
End Int.

Lemma round53_small z : Z.abs z <= 2 ^ 53 -> round53 z = z.
Proof.
  intros H. unfold round53. destruct (Z.leb_spec (Z.log2 (Z.abs z) - 52) 0); auto.
  assert (0 < Z.abs z) by (destruct (Z.eq_dec z 0) as [-> |]; [cbn in *; lia | lia]).
  assert (Z.log2 (Z.abs z) <= Z.log2 (2 ^ 53)) by now apply Z.log2_le_mono.
  rewrite Z.log2_pow2 in * by lia. assert (2 ^ 53 <= Z.abs z).
  { transitivity (2 ^ Z.log2 (Z.abs z)); [apply Z.pow_le_mono_r; lia | apply Z.log2_spec; lia]. }
  assert (E : Z.abs z = 2 ^ 53) by lia. rewrite E.
  assert (D : z = 2 ^ 53 \/ z = - 2 ^ 53) by lia. destruct D as [-> | ->]; reflexivity.
Qed.

Lemma int64_midpoint a b : - 2 ^ 53 <= a -> a < b -> b <= 2 ^ 53 ->
  a <= int_sum true (mkitype true 64) a (ensure_unsigned 64 (int_wrap (mkitype true 64) (b - a)) / 2) < b.
Proof.
  intros Ha Hab Hb. rewrite int_wrap_small by (cbn; lia). unfold ensure_unsigned, wrap. rewrite Z.mod_small by lia.
  assert (0 <= (b - a) / 2) by (apply Z.div_pos; lia).
  assert ((b - a) / 2 < b - a) by (apply Z.div_lt; lia).
  assert ((b - a) / 2 <= 2 ^ 53) by (apply Z.div_le_upper_bound; lia).
  change (int_sum true (mkitype true 64) a ((b - a) / 2)) with (round53 (round53 a + round53 ((b - a) / 2))).
  rewrite (round53_small a), (round53_small ((b - a) / 2)), round53_small by lia. lia.
Qed.

Lemma int64_cutpoints mode lin even x max_bins : 1 <= zlen x < 2 ^ 64 -> 1 <= max_bins ->
  (forall v, In v x -> Z.abs v <= 2 ^ 53) ->
  (forall L, 0 <= L < zlen x -> good_grid lin even L (Z.min max_bins (zlen x) - 1)) ->
  let r := quantilized_row_int true (mkitype true 64) mode lin x (Z.min max_bins (zlen x) - 1) in
  quantile_cutpoints Z.ltb even (2 ^ 63) max_bins x (fst r) (snd r).
Proof.
  intros Hx Hb Hf GG.
  apply (int_cutpoints_gen true (mkitype true 64) (- 2 ^ 53) (2 ^ 53) mode lin even x max_bins Hx Hb); auto.
  - apply int64_midpoint.
  - intros v Hv. specialize (Hf v Hv). lia.
Qed.

(** ** Binning *)
Section Bin.
  Context {A : Type} {lt eqb : A -> A -> bool} {TO : total_order lt eqb}.

  Lemma searchsorted_left_range (a : list A) v : 0 <= searchsorted_left lt a v <= zlen a.
  Proof.
    induction a as [| c a IH]; cbn [searchsorted_left]; [rewrite zlen_nil; lia |].
    rewrite zlen_cons. destruct (lt c v); lia.
  Qed.

  Lemma in_bin_cons c (a : list A) i v : lt c v = true -> 0 <= i ->
    in_bin lt a i v -> in_bin lt (c :: a) (1 + i) v.
  Proof.
    intros Hc Hi (R & B1 & B2). split; [cbn [length]; lia |]. split.
    - intros b _ E. destruct (Z.eq_dec i 0) as [-> | N].
      + change (Some c = Some b) in E. now injection E as <-.
      + apply B1; [lia |]. replace (Z.to_nat (1 + i - 1)) with (S (Z.to_nat (i - 1))) in E by lia. exact E.
    - intros b E. apply B2. replace (Z.to_nat (1 + i)) with (S (Z.to_nat i)) in E by lia. exact E.
  Qed.

  Lemma searchsorted_left_bin (a : list A) v : in_bin lt a (searchsorted_left lt a v) v.
  Proof.
    induction a as [| c a IH]; cbn [searchsorted_left].
    - split; [cbn; lia |]. split; cbn; [intros; lia | discriminate].
    - destruct (lt c v) eqn:E.
      + apply in_bin_cons; auto. apply searchsorted_left_range.
      + split; [cbn [length]; lia |]. split; [intros; lia |]. intros b Eb. change (Some c = Some b) in Eb. now injection Eb as <-.
  Qed.

  Lemma nondecreasing_nth_error (a : list A) i j c e : nondecreasing lt a -> (i <= j)%nat ->
    nth_error a i = Some c -> nth_error a j = Some e -> lt e c = false.
  Proof.
    intros ND. revert i j. induction ND as [| b a SS IH Fa]; intros i j Hij Ei Ej; [now destruct i |].
    rewrite Forall_forall in Fa.
    destruct i, j; cbn in Ei, Ej; try lia.
    - injection Ei as <-. injection Ej as <-. apply o_irrefl.
    - injection Ei as <-. apply Fa. eapply nth_error_In; eauto.
    - eapply IH; [| eauto | eauto]; lia.
  Qed.

  (** bin v >= s iff cutpoint s - 1 is below v *)
  Lemma in_bin_cut (a : list A) i v s c : nondecreasing lt a -> in_bin lt a i v -> 1 <= s ->
    nth_error a (Z.to_nat (s - 1)) = Some c -> (s <= i <-> lt c v = true).
  Proof.
    intros ND (R & B1 & B2) Hs E. split.
    - intros H. destruct (nth_error a (Z.to_nat (i - 1))) as [e |] eqn:Q.
      + specialize (B1 e ltac:(lia) eq_refl).
        pose proof (nondecreasing_nth_error a (Z.to_nat (s - 1)) (Z.to_nat (i - 1)) c e ND ltac:(lia) E Q) as O.
        eapply nlt_lt_trans; eauto.
      + apply nth_error_None in Q. lia.
    - intros H. destruct (Z.lt_ge_cases i s) as [Q | Q]; [| lia]. exfalso.
      destruct (nth_error a (Z.to_nat i)) as [e |] eqn:Q'.
      + specialize (B2 e eq_refl).
        pose proof (nondecreasing_nth_error a (Z.to_nat i) (Z.to_nat (s - 1)) e c ND ltac:(lia) Q' E) as O.
        assert (nth_error a (Z.to_nat i) <> None) by congruence.
        pose proof (nlt_trans _ _ _ B2 O). congruence.
      + apply nth_error_None in Q'. assert (nth_error a (Z.to_nat (s - 1)) <> None) by congruence.
        apply nth_error_Some in H0. lia.
  Qed.

  Lemma in_bin_unique (a : list A) i i' v : nondecreasing lt a ->
    in_bin lt a i v -> in_bin lt a i' v -> i = i'.
  Proof.
    intros ND B B'.
    assert (G : forall i i', in_bin lt a i v -> in_bin lt a i' v -> i <= i').
    { clear i i' B B'. intros i i' B B'. destruct (Z.eq_dec i 0) as [-> | N]; [apply B' |].
      destruct (nth_error a (Z.to_nat (i - 1))) as [c |] eqn:Q.
      - apply (in_bin_cut a i' v i c ND B'); [destruct B; lia | auto |].
        apply (in_bin_cut a i v i c ND B); [destruct B; lia | auto | lia].
      - apply nth_error_None in Q. destruct B. lia. }
    apply Z.le_antisymm; auto.
  Qed.
End Bin.
