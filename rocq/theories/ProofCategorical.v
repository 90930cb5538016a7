(** Lemmas on [categorical] (C18). *)
From Coq Require Import ZArith List Bool Lia Arith Reals Lra.
From Verif Require Import Base LemBase ModelJaxext ModelGrove ModelStep Laws ProofSampling.
Import ListNotations.
Open Scope Z_scope.

Lemma last_nth_eq {A} (l : list A) d : l <> [] -> last l d = nth (length l - 1) l d.
Proof.
  induction l as [| x l IH]; intros H; [congruence |]. destruct l as [| y l]; [reflexivity |].
  change (last (x :: y :: l) d) with (last (y :: l) d). rewrite IH by discriminate. cbn [length].
  replace (S (S (length l)) - 1)%nat with (S (S (length l) - 1)) by lia. reflexivity.
Qed.

Section Cat.
  Context {fo : fops} {zo : zoob} {foo : foob fo} {g : rng fo} {fl : flaws fo} {rl : rlaws g}.

  (** the index returned has a non-zero weight *)
  Lemma categorical_valid : forall k distr,
    (forall x, In x distr -> fle f0 x = true) ->
    (exists x, In x distr /\ flt f0 x = true) ->
    0 <= fst (categorical k distr) < zlen distr /\
    zget f0 distr (fst (categorical k distr)) <> f0.
  Proof.
    intros k distr Hnn Hpos.
    assert (Hn : distr <> []) by (intros ->; destruct Hpos as (x & [] & _)).
    assert (Hl : 1 <= zlen distr).
    { destruct distr; [congruence | rewrite zlen_cons; pose proof (zlen_nonneg _ distr); lia]. }
    unfold categorical. cbn [fst].
    set (ecdf := fcumsum distr) in *.
    assert (Hlen : zlen ecdf = zlen distr) by (unfold zlen, ecdf; now rewrite fl_cs_length).
    assert (Et : gather fmode ecdf (-1) = last ecdf f0).
    { rewrite (gather_last _ _ f0) by lia. unfold zget. rewrite last_nth_eq by (intros E; rewrite E in Hlen; unfold zlen in Hlen, Hl; cbn in Hlen; lia).
      f_equal. unfold zlen in *. lia. }
    set (total := gather fmode ecdf (-1)) in *.
    assert (Pt : flt f0 total = true).
    { rewrite Et. now apply fl_cs_pos. }
    set (u := r_unif_to k total) in *.
    set (i := searchsorted_right flt ecdf u).
    assert (Hi : 0 <= i < zlen distr).
    { split; [apply ss_right_bounds |]. rewrite <- Hlen.
      apply ss_right_exists with (x := total).
      - unfold total. rewrite (gather_last _ _ f0) by lia. apply zget_In; lia.
      - apply rl_unif_to_lt; auto. }
    split; auto. intros E.
    assert (A : flt u (zget f0 ecdf i) = true) by (apply ss_right_at; fold i; lia).
    destruct (Z.eq_dec i 0) as [E0 | E0].
    - rewrite E0 in *. destruct distr as [| y distr]; [congruence |].
      rewrite zget_cons0 in E. subst y. unfold zget, ecdf in A. cbn [Z.to_nat] in A.
      rewrite fl_cs_first in A.
      unfold u in A. rewrite rl_unif_to_ge in A; [discriminate |].
      apply fl_pos_nonneg; auto.
    - replace (zget f0 ecdf i) with (nth (S (Z.to_nat (i - 1))) ecdf f0) in A
        by (unfold zget; f_equal; lia).
      unfold ecdf in A. rewrite fl_cs_flat in A.
      + fold ecdf in A. change (nth (Z.to_nat (i - 1)) ecdf f0) with (zget f0 ecdf (i - 1)) in A.
        rewrite (ss_right_before _ flt f0 ecdf u (i - 1)) in A; [discriminate |].
        fold i. lia.
      + unfold zlen in Hi. lia.
      + transitivity (zget f0 distr i); [unfold zget; f_equal; lia | exact E].
  Qed.
End Cat.

(** ** exact arithmetic *)

Definition Rsum (l : list R) : R := fold_right Rplus 0%R l.

Lemma fold_left_Rplus : forall l acc, fold_left Rplus l acc = (acc + Rsum l)%R.
Proof. induction l; simpl; intros; [lra |]. rewrite IHl. lra. Qed.

Lemma Rsum_nonneg : forall l, (forall x, In x l -> 0 <= x)%R -> (0 <= Rsum l)%R.
Proof.
  induction l; simpl; intros; [lra |]. assert (0 <= a)%R by auto.
  assert (0 <= Rsum l)%R by auto. lra.
Qed.

Lemma Rsum_app : forall l l', Rsum (l ++ l') = (Rsum l + Rsum l')%R.
Proof. induction l; simpl; intros; [lra |]. rewrite IHl; lra. Qed.

Lemma Rsum_firstn_mono : forall l m n,
  (forall x, In x l -> 0 <= x)%R -> (m <= n)%nat ->
  (Rsum (firstn m l) <= Rsum (firstn n l))%R.
Proof.
  induction l; intros m n H Hmn; [rewrite !firstn_nil; lra |].
  destruct m; simpl.
  - change (0 <= Rsum (firstn n (a :: l)))%R. apply Rsum_nonneg. intros x Hx.
    apply H. eapply firstn_In || (revert Hx; clear; intros Hx;
      rewrite <- (firstn_skipn n (a :: l)); apply in_or_app; auto).
  - destruct n; [lia |]. simpl.
    assert (Rsum (firstn m l) <= Rsum (firstn n l))%R
      by (apply IHl; [intros; apply H; simpl; auto | lia]). lra.
Qed.

Lemma firstn_S_nth : forall (l : list R) n,
  (n < length l)%nat -> Rsum (firstn (S n) l) = (Rsum (firstn n l) + nth n l 0)%R.
Proof.
  induction l; intros n Hn; simpl in Hn; [lia |].
  destruct n; simpl; [lra |]. rewrite <- Rplus_assoc || idtac.
  specialize (IHl n ltac:(lia)). simpl in IHl. rewrite IHl. lra.
Qed.

(** sum of the first [i] weights *)
Definition weight_before (distr : list R) (i : Z) : R := Rsum (firstn (Z.to_nat i) distr).

Section CatR.
  Context {foo : foob rops} {g : rng rops} {rl : real_rng g}.

  Lemma categorical_total : forall k (distr : list R),
    distr <> [] -> snd (categorical (fo := rops) k distr) = fold_left Rplus distr 0%R.
  Proof.
    intros k distr Hn. unfold categorical; simpl.
    assert (Hl : 1 <= zlen distr).
    { destruct distr; [congruence | rewrite zlen_cons; pose proof (zlen_nonneg _ distr); lia]. }
    rewrite (gather_last _ _ 0%R) by (rewrite zlen_cumsum; lia).
    rewrite zlen_cumsum, zget_cumsum by lia.
    rewrite firstn_all2; auto. unfold zlen in *; lia.
  Qed.

  Lemma categorical_interval : forall k (distr : list R),
    (forall x, In x distr -> 0 <= x)%R -> (0 < Rsum distr)%R ->
    let u := r_unif_to (rng := g) k (Rsum distr : @F rops) in
    forall i, fst (categorical (fo := rops) k distr) = i <->
      0 <= i < zlen distr /\
      (weight_before distr i <= u < weight_before distr i + zget 0 distr i)%R.
  Proof.
    intros k distr Hnn Hpos u.
    assert (Hn : distr <> []) by (intros ->; simpl in Hpos; lra).
    assert (Hl : 1 <= zlen distr).
    { destruct distr; [congruence | rewrite zlen_cons; pose proof (zlen_nonneg _ distr); lia]. }
    pose proof (categorical_total k distr Hn) as Ht.
    unfold categorical in *. cbn [fst snd] in *.
    rewrite Ht in *. cbn [rops fadd f0 F fcumsum] in *.
    rewrite fold_left_Rplus, Rplus_0_l in *. fold u.
    set (ecdf := cumsum_from Rplus 0%R distr) in *.
    assert (Hlen : zlen ecdf = zlen distr) by apply zlen_cumsum.
    assert (Hec : forall j, 0 <= j < zlen distr ->
      zget 0%R ecdf j = (weight_before distr j + zget 0 distr j)%R).
    { intros j Hj. unfold ecdf. rewrite zget_cumsum by lia.
      rewrite fold_left_Rplus, Rplus_0_l. unfold weight_before, zget.
      apply firstn_S_nth. unfold zlen in *; lia. }
    assert (Hec' : forall j, 0 <= j < zlen distr -> zget 0%R ecdf j = weight_before distr (j + 1)).
    { intros j Hj. unfold ecdf. rewrite zget_cumsum by lia.
      rewrite fold_left_Rplus, Rplus_0_l. unfold weight_before.
      do 2 f_equal. lia. }
    pose proof (rr_unif_to k (Rsum distr) Hpos) as Hu. fold u in Hu.
    cbn [flt] .
    set (r := searchsorted_right Rltb ecdf u).
    assert (Hr : 0 <= r < zlen distr).
    { split; [apply ss_right_bounds |]. rewrite <- Hlen.
      apply ss_right_exists with (x := zget 0%R ecdf (zlen distr - 1)).
      - apply zget_In. lia.
      - apply Rltb_spec. rewrite Hec' by lia. unfold weight_before.
        rewrite firstn_all2 by (unfold zlen in *; lia). lra. }
    assert (R1 : (u < weight_before distr r + zget 0 distr r)%R).
    { rewrite <- Hec by lia. apply Rltb_spec. apply ss_right_at. fold r. lia. }
    assert (R0 : (weight_before distr r <= u)%R).
    { destruct (Z.eq_dec r 0) as [-> | N]; [unfold weight_before; simpl; lra |].
      replace r with (r - 1 + 1) at 1 by lia. rewrite <- Hec' by lia.
      apply Rltb_false. apply ss_right_before. fold r. lia. }
    intros i; split.
    - intros <-. split; auto.
    - intros [Hi [I0 I1]]. rewrite <- Hec, Hec' in R1, I1 by lia.
      destruct (Z.lt_trichotomy r i) as [L | [L | L]]; auto; exfalso.
      + assert (weight_before distr (r + 1) <= weight_before distr i)%R
          by (apply Rsum_firstn_mono; auto; lia). lra.
      + assert (weight_before distr (i + 1) <= weight_before distr r)%R
          by (apply Rsum_firstn_mono; auto; lia). lra.
  Qed.

  Lemma categorical_zero : forall k (distr : list R),
    distr <> [] -> (forall x, In x distr -> x = 0)%R ->
    fst (categorical (fo := rops) k distr) = zlen distr.
  Proof.
    intros k distr Hn H0.
    pose proof (categorical_total k distr Hn) as Ht.
    unfold categorical in *. cbn [fst snd] in *. rewrite Ht.
    cbn [rops fadd f0 F flt fcumsum] in *. rewrite fold_left_Rplus, Rplus_0_l.
    assert (E : forall l, (forall x, In x l -> x = 0)%R -> Rsum l = 0%R).
    { induction l; simpl; intros; auto. rewrite (H a), IHl by auto. lra. }
    rewrite E by auto. rewrite rr_unif_to_0.
    rewrite ss_right_all; [apply zlen_cumsum |].
    intros x Hx. apply Rltb_false.
    apply In_zget with (d := 0%R) in Hx. destruct Hx as (j & Hj & <-).
    rewrite zlen_cumsum in Hj. rewrite zget_cumsum by lia.
    rewrite fold_left_Rplus, Rplus_0_l, E; [lra |].
    intros x Hx. apply H0. rewrite <- (firstn_skipn (S (Z.to_nat j)) distr).
    apply in_or_app; auto.
  Qed.
End CatR.
