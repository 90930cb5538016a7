(** Proofs about [unique]. *)
From Coq Require Import ZArith List Bool Lia Sorted.
From Verif Require Import Base LemBase ModelJaxext SpecPrep ProofSampling.
Import ListNotations.
Open Scope Z_scope.

Section Unique.
  Context {A : Type} {lt eqb : A -> A -> bool} {TO : total_order lt eqb}.

  Lemma lt_asym a b : lt a b = true -> lt b a = false.
  Proof.
    intros H. destruct (lt b a) eqn:E; auto. pose proof (o_trans _ _ _ H E). now rewrite o_irrefl in H0.
  Qed.

  Lemma not_lt a b : lt a b = false <-> a = b \/ lt b a = true.
  Proof.
    split.
    - intros H. destruct (o_total a b) as [E | [E | E]]; auto. congruence.
    - intros [-> | H]; [apply o_irrefl | now apply lt_asym].
  Qed.

  Lemma nlt_trans a b c : lt b a = false -> lt c b = false -> lt c a = false.
  Proof.
    rewrite !not_lt. intros [-> | H1] [-> | H2]; auto. right. eapply o_trans; eauto.
  Qed.

  Lemma lt_nlt_trans a b c : lt a b = true -> lt c b = false -> lt a c = true.
  Proof. intros H H1. apply not_lt in H1 as [-> | H1]; auto. eapply o_trans; eauto. Qed.

  Lemma nlt_lt_trans a b c : lt b a = false -> lt b c = true -> lt a c = true.
  Proof. intros H H1. apply not_lt in H as [-> | H]; auto. eapply o_trans; eauto. Qed.

  Lemma eqb_refl a : eqb a a = true.
  Proof. now apply o_eqb. Qed.

  Lemma insert_nondecreasing x l : nondecreasing lt l -> nondecreasing lt (insert_sorted lt x l).
  Proof.
    intros H. induction l as [| y l IH]; cbn [insert_sorted].
    - repeat constructor.
    - inversion H as [| ? ? S Fa]; subst. destruct (lt y x) eqn:E.
      + constructor; [now apply IH |]. apply Forall_forall. intros z Hz.
        apply insert_sorted_In in Hz as [-> | Hz]; [now apply lt_asym |].
        rewrite Forall_forall in Fa. now apply Fa.
      + constructor; auto. apply Forall_forall. intros z [-> | Hz]; auto.
        rewrite Forall_forall in Fa. specialize (Fa z Hz). now apply (nlt_trans x y z).
  Qed.

  Lemma sort_nondecreasing l : nondecreasing lt (jnp_sort lt l).
  Proof. induction l; [constructor |]. now apply insert_nondecreasing. Qed.

  (** distinct values of a sorted list, after [last] *)
  Fixpoint dedup_from (last : A) (l : list A) : list A :=
    match l with
    | [] => []
    | x :: l => if eqb x last then dedup_from last l else x :: dedup_from x l
    end.

  Lemma dedup_length last l : (length (dedup_from last l) <= length l)%nat.
  Proof.
    revert last. induction l as [| x l IH]; intros last; cbn [dedup_from]; auto.
    destruct (eqb x last); cbn [length]; [| specialize (IH x)]; [specialize (IH last) |]; lia.
  Qed.

  Lemma dedup_In last l v : In v (last :: dedup_from last l) <-> In v (last :: l).
  Proof.
    revert last. induction l as [| x l IH]; intros last; cbn [dedup_from]; [easy |].
    destruct (eqb x last) eqn:E.
    - apply o_eqb in E. subst x. rewrite IH. cbn [In]. tauto.
    - cbn [In] in *. specialize (IH x). tauto.
  Qed.

  Lemma dedup_increasing last l : nondecreasing lt (last :: l) -> increasing lt (last :: dedup_from last l).
  Proof.
    revert last. induction l as [| x l IH]; intros last H; cbn [dedup_from].
    - repeat constructor.
    - inversion H as [| ? ? S Fa]; subst. inversion S as [| ? ? S' Fa']; subst.
      inversion Fa as [| ? ? Hx Fl]; subst.
      destruct (eqb x last) eqn:E.
      + apply IH. now constructor.
      + assert (L : lt last x = true).
        { destruct (o_total last x) as [Q | [Q | Q]]; auto; [| congruence].
          subst x. rewrite eqb_refl in E. discriminate. }
        assert (I : increasing lt (x :: dedup_from x l)) by (apply IH; now constructor).
        constructor; auto. apply Forall_forall. intros z Hz. destruct Hz as [-> | Hz]; auto.
        inversion I as [| ? ? I' Fi]; subst. rewrite Forall_forall in Fi.
        eapply o_trans; [exact L | now apply Fi].
  Qed.

  Lemma upd_app_middle (a : list A) x v r : upd (length a) v (a ++ x :: r) = a ++ v :: r.
  Proof. induction a as [| y a IH]; cbn; [reflexivity | now rewrite IH]. Qed.

  Lemma scatter_at (a : list A) x v r : scatter_set (a ++ x :: r) (zlen a) v = a ++ v :: r.
  Proof.
    unfold scatter_set. rewrite norm_index_nonneg by (unfold zlen; lia).
    replace (in_bounds _ _) with true.
    - unfold zlen. rewrite Nat2Z.id. apply upd_app_middle.
    - symmetry. unfold in_bounds. apply andb_true_intro.
      split; [apply Z.leb_le | apply Z.ltb_lt]; unfold zlen; rewrite ?app_length; cbn [length]; lia.
  Qed.

  Lemma unique_loop_spec fill l : forall done last r, (length l <= r)%nat ->
    exists lst,
    fold_left (unique_loop eqb) l (zlen done, last, (done ++ [last]) ++ repeat fill r) =
    (zlen done + zlen (dedup_from last l), lst,
     (done ++ [last]) ++ dedup_from last l ++ repeat fill (r - length (dedup_from last l))).
  Proof.
    induction l as [| x l IH]; intros done last r Hr; cbn [fold_left dedup_from length] in *.
    - exists last. rewrite zlen_nil, Z.add_0_r, Nat.sub_0_r. reflexivity.
    - cbn [unique_loop]. destruct (eqb x last) eqn:E.
      + apply o_eqb in E. subst x.
        assert (S : scatter_set ((done ++ [last]) ++ repeat fill r) (zlen done) last =
          (done ++ [last]) ++ repeat fill r).
        { rewrite <- app_assoc. apply scatter_at. }
        rewrite S. apply IH. lia.
      + destruct r as [| r]; [lia |].
        assert (S : scatter_set ((done ++ [last]) ++ repeat fill (S r)) (zlen done + 1) x =
          ((done ++ [last]) ++ [x]) ++ repeat fill r).
        { replace (zlen done + 1) with (zlen (done ++ [last])) by (rewrite zlen_app; reflexivity).
          cbn [repeat]. rewrite scatter_at. now rewrite <- (app_assoc _ [x]). }
        rewrite S. replace (zlen done + 1) with (zlen (done ++ [last])) by (rewrite zlen_app; reflexivity).
        destruct (IH (done ++ [last]) x r ltac:(lia)) as [lst ->]. exists lst.
        rewrite zlen_app, !zlen_cons, zlen_nil. cbn [length].
        rewrite <- (app_assoc _ [x]). cbn [app Nat.sub]. f_equal. f_equal. lia.
  Qed.

  Lemma unique_first fill x0 l r : (length l <= r)%nat ->
    exists lst,
    fold_left (unique_loop eqb) (x0 :: l) (0, x0, repeat fill (S r)) =
    (zlen (dedup_from x0 l), lst, (x0 :: dedup_from x0 l) ++ repeat fill (r - length (dedup_from x0 l))).
  Proof.
    intros Hr. cbn [fold_left unique_loop]. rewrite eqb_refl.
    change (repeat fill (S r)) with ([] ++ fill :: repeat fill r).
    change 0 with (zlen (@nil A)). rewrite scatter_at.
    destruct (unique_loop_spec fill l [] x0 r Hr) as [lst E].
    exists lst. rewrite zlen_nil in *. exact E.
  Qed.

  (** [unique] keeps the [size] smallest elements (with repetitions) and
      removes the repetitions. *)
  Lemma unique_spec x size fill : 0 <= size ->
    exists u, distinct_values lt (firstn (Z.to_nat size) (jnp_sort lt x)) u /\
      unique lt eqb x size fill = (u ++ repeat fill (Z.to_nat size - length u), zlen u) /\
      zlen u <= size.
  Proof.
    intros Hs. unfold unique. destruct x as [| a x].
    { exists []. rewrite firstn_nil. split; [split; [constructor | easy] |]. rewrite zlen_nil.
      split; [| lia]. unfold full. cbn [length app]. now rewrite Nat.sub_0_r. }
    destruct (Z.eqb_spec size 0) as [-> | N].
    { exists []. split; [split; [constructor | easy] |]. now rewrite zlen_nil. }
    pose proof (sort_nondecreasing (a :: x)) as SN.
    pose proof (jnp_sort_length A lt (a :: x)) as SL.
    destruct (jnp_sort lt (a :: x)) as [| x0 xs]; [discriminate |].
    unfold full. destruct (Z.to_nat size) as [| r] eqn:Er; [lia |]. cbn [firstn].
    assert (Hl : (length (firstn r xs) <= r)%nat) by (rewrite firstn_length; lia).
    destruct (unique_first fill x0 (firstn r xs) r Hl) as [lst ->].
    exists (x0 :: dedup_from x0 (firstn r xs)).
    split; [split |].
    - apply dedup_increasing.
      assert (FN : forall n (l : list A), nondecreasing lt l -> nondecreasing lt (firstn n l)).
      { clear. induction n; intros l H; [constructor |]. destruct H; [constructor |].
        cbn [firstn]. constructor; [now apply IHn |]. rewrite Forall_forall in *.
        intros z Hz. apply H0. revert Hz. clear. revert l. induction n; intros [| y l]; cbn; try easy.
        intros [-> | H]; auto. }
      apply (FN (S r) _ SN).
    - intros v. apply dedup_In.
    - cbn [length app Nat.sub]. rewrite zlen_cons. split.
      + f_equal. lia.
      + pose proof (dedup_length x0 (firstn r xs)). unfold zlen. lia.
  Qed.

  (** with enough room, the distinct values of [x] *)
  Lemma unique_all x size fill : zlen x <= size ->
    exists u, distinct_values lt x u /\
      unique lt eqb x size fill = (u ++ repeat fill (Z.to_nat size - length u), zlen u) /\
      zlen u <= zlen x.
  Proof.
    intros H. assert (0 <= size) by (unfold zlen in H; lia).
    destruct (unique_spec x size fill) as (u & [I D] & E & L); auto.
    rewrite firstn_all2 in D by (rewrite jnp_sort_length; unfold zlen in H; lia).
    assert (D' : forall v, In v u <-> In v x) by (intros v; rewrite D; apply jnp_sort_In).
    exists u. split; [split; auto |]. split; auto.
    unfold zlen. apply inj_le. apply NoDup_incl_length; [| intros v; now apply D'].
    clear -I TO. induction I as [| a l S IH Fa]; constructor; auto.
    intros Ha. rewrite Forall_forall in Fa. specialize (Fa a Ha). now rewrite o_irrefl in Fa.
  Qed.

  (** uniqueness of the list of distinct values *)
  Lemma distinct_values_unique x u u' : distinct_values lt x u -> distinct_values lt x u' -> u = u'.
  Proof.
    intros [I D] [I' D'].
    assert (H : forall v, In v u <-> In v u') by (intros v; rewrite D, D'; tauto).
    clear D D'. revert u' I' H. induction u as [| a u IH]; intros [| b u'] I' H; auto.
    - specialize (H b). cbn in H. tauto.
    - specialize (H a). cbn in H. tauto.
    - inversion I as [| ? ? S Fa]; subst. inversion I' as [| ? ? S' Fa']; subst.
      rewrite Forall_forall in Fa, Fa'.
      assert (a = b).
      { destruct (proj1 (H a) (or_introl eq_refl)) as [E | E]; auto.
        destruct (proj2 (H b) (or_introl eq_refl)) as [E' | E']; auto.
        pose proof (lt_asym _ _ (Fa' _ E)). rewrite (Fa _ E') in H0. discriminate. }
      subst b. f_equal. apply IH; auto. intros v. specialize (H v). cbn in H. split; intros Hv.
      + destruct (proj1 H (or_intror Hv)) as [-> | ?]; auto. specialize (Fa _ Hv). now rewrite o_irrefl in Fa.
      + destruct (proj2 H (or_intror Hv)) as [-> | ?]; auto. specialize (Fa' _ Hv). now rewrite o_irrefl in Fa'.
  Qed.
End Unique.

#[global] Instance Z_order : total_order Z.ltb Z.eqb.
Proof.
  constructor; intros.
  - apply Z.ltb_irrefl.
  - rewrite Z.ltb_lt in *. lia.
  - rewrite !Z.ltb_lt. lia.
  - apply Z.eqb_eq.
Qed.
