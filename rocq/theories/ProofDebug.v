(** Lemmas for debug.py. *)
From Coq Require Import String ZArith List Bool Lia.
From Verif Require Import Base LemBase ModelJaxext ModelGrove ModelDebug SpecTree SpecForest SpecDebug
  ProofTree ProofAggregate ProofForest PropTree.
Import ListNotations.
Open Scope Z_scope.

(** ** Checks *)

Lemma minimal_narrowest v : v < 2 ^ 64 -> narrowest v (minimal_unsigned_bits v).
Proof.
  intros H. unfold narrowest, minimal_unsigned_bits.
  destruct (Z.ltb_spec v (2 ^ 8)); [| destruct (Z.ltb_spec v (2 ^ 16)); [| destruct (Z.ltb_spec v (2 ^ 32))]];
    (split; [cbn; tauto |]; split; [assumption |]; intros b [<- | [<- | [<- | [<- | []]]]]; lia).
Qed.

Lemma narrowest_unique v a b : narrowest v a -> narrowest v b -> a = b.
Proof. intros (A1 & A2 & A3) (B1 & B2 & B3). specialize (A3 b B1 B2). specialize (B3 a A1 A2). lia. Qed.

Lemma gather_fill_entry l i : 0 <= i -> gather_fill 0 l i = entry l i.
Proof. intros Hi. rewrite entry_zget. now apply gather_fill_zget. Qed.

Section Checks.
  Context {fo : fops} {zo : zoob}.

  Lemma stray_spec sp : 1 <= zlen (tdata sp) <= 2 ^ 63 ->
    (check_stray_nodes sp = true <-> no_stray (tdata sp)).
  Proof.
    intros HL. rewrite no_stray_local. unfold check_stray_nodes. set (l := tdata sp) in *.
    set (bits := minimal_unsigned_bits (2 * zlen l - 1)).
    destruct (minimal_narrowest (2 * zlen l - 1) ltac:(lia)) as (_ & HB & _). fold bits in HB.
    assert (EI : map (wrap bits) (arange (2 * zlen l)) = arange (2 * zlen l)).
    { rewrite <- (map_id (arange (2 * zlen l))) at 2. apply map_ext_in. intros i Hi.
      apply in_map_iff in Hi as (k & <- & Hk). apply in_seq in Hk. unfold wrap. apply Z.mod_small. lia. }
    rewrite EI. rewrite map_map.
    set (stray := map2 andb _ _).
    assert (LS : zlen stray = 2 * zlen l).
    { unfold stray. rewrite zlen_map2, !zlen_map, zlen_arange by lia. lia. }
    assert (GS : forall i, 0 <= i < 2 * zlen l ->
      zget false stray i = negb (entry l i =? 0) && (entry l (i / 2) =? 0)).
    { intros i Hi. unfold stray.
      assert (LA : zlen (arange (2 * zlen l)) = 2 * zlen l) by (rewrite zlen_arange; lia).
      rewrite (zget_map2 _ _ _ _ _ false false) by (rewrite ?zlen_map, LA; lia).
      rewrite !(zget_map _ _ _ 0) by (rewrite LA; lia). rewrite zget_arange by lia.
      rewrite gather_fill_entry by lia. f_equal.
      rewrite Z.shiftr_div_pow2 by lia. change (2 ^ 1) with 2.
      assert (0 <= i / 2 < zlen l) by (split; [apply Z.div_pos; lia | apply Z.div_lt_upper_bound; lia]).
      rewrite (gather_in _ _ 0) by lia. reflexivity. }
    rewrite negb_true_iff. split.
    - intros H i Hi [D1 D2]. destruct (decision_dec l (i / 2)) as [D | D]; [exact D |].
      assert (Hl : i < zlen l) by (apply decision_lt; now split).
      assert (Hi2 : 1 <= i / 2) by (apply Z.div_le_lower_bound; lia).
      apply not_decision_0 in D; [| exact Hi2].
      exfalso. assert (Q : In true (scatter_set stray 1 false)).
      { replace true with (zget false (scatter_set stray 1 false) i).
        - apply zget_In. rewrite zlen_scatter_set. lia.
        - rewrite zget_scatter_set by lia. destruct (Z.eqb_spec 1 i); [lia |]. rewrite GS by lia.
          rewrite D. apply Z.eqb_neq in D2. rewrite D2. reflexivity. }
      assert (E : existsb (fun b => b) (scatter_set stray 1 false) = true) by (apply existsb_exists; eauto).
      congruence.
    - intros H. apply not_true_iff_false. intros E. apply existsb_exists in E as (v & Hv & Ev). subst v.
      apply (In_zget _ false) in Hv as (i & Hi & E). rewrite zlen_scatter_set in Hi.
      rewrite zget_scatter_set in E by lia. destruct (Z.eqb_spec 1 i) as [| N]; [discriminate |].
      rewrite GS in E by lia. apply andb_true_iff in E as [E1 E2].
      apply negb_true_iff, Z.eqb_neq in E1. apply Z.eqb_eq in E2.
      destruct (Z.eq_dec i 0) as [-> | N0]; [contradiction |].
      destruct (H i ltac:(lia)) as [_ D]; [split; [lia | exact E1] |]. congruence.
  Qed.

  (** the description of the error lists the failed checks *)
  Lemma describe_check leaf var sp ms :
    describe_error (check_tree leaf var sp ms) =
    map fst (filter (fun c => negb (snd c)) (checks leaf var sp ms)).
  Proof.
    unfold check_tree, checks.
    destruct (check_types var sp ms), (check_sizes leaf var sp), (check_unused_node var sp),
      (check_leaf_values leaf), (check_stray_nodes sp); reflexivity.
  Qed.
  Lemma check_zero leaf var sp ms :
    check_tree leaf var sp ms = 0 <-> forall c, In c (checks leaf var sp ms) -> snd c = true.
  Proof.
    unfold check_tree, checks.
    destruct (check_types var sp ms), (check_sizes leaf var sp), (check_unused_node var sp),
      (check_leaf_values leaf), (check_stray_nodes sp); cbn;
      (split; [intros E; try discriminate; intros c H; repeat (destruct H as [<- | H]; [reflexivity |]); destruct H |]);
      intros H; try reflexivity; exfalso;
      match goal with H : forall c, _ \/ _ -> _ |- _ =>
        first [ specialize (H ("check_types"%string, false) ltac:(auto 8)); discriminate
              | specialize (H ("check_sizes"%string, false) ltac:(auto 8)); discriminate
              | specialize (H ("check_unused_node"%string, false) ltac:(auto 8)); discriminate
              | specialize (H ("check_leaf_values"%string, false) ltac:(auto 8)); discriminate
              | specialize (H ("check_stray_nodes"%string, false) ltac:(auto 8)); discriminate ] end.
  Qed.
End Checks.

(** ** Distributions *)

Lemma NoDup_arange n : NoDup (arange n).
Proof.
  unfold arange. apply FinFun.Injective_map_NoDup; [| apply seq_NoDup].
  intros a b H. lia.
Qed.
Lemma In_arange n i : In i (arange n) <-> 0 <= i < n.
Proof.
  unfold arange. rewrite in_map_iff. split.
  - intros (k & <- & H). apply in_seq in H. lia.
  - intros H. exists (Z.to_nat i). split; [lia |]. apply in_seq. lia.
Qed.
Lemma map_zget_arange {A} (d : A) l : map (zget d l) (arange (zlen l)) = l.
Proof.
  pose proof (zlen_nonneg _ l).
  apply (nth_ext _ _ d d).
  - rewrite map_length, length_arange. unfold zlen. lia.
  - intros k Hk. rewrite map_length, length_arange in Hk.
    change (nth k (map (zget d l) (arange (zlen l))) d) with (nth k (map (zget d l) (arange (zlen l))) d).
    assert (E : forall m : list A, nth k m d = zget d m (Z.of_nat k)) by (intros; unfold zget; now rewrite Nat2Z.id).
    rewrite !E. rewrite (zget_map _ _ _ 0) by (rewrite zlen_arange; lia).
    now rewrite zget_arange by lia.
Qed.

Definition total (l : list Z) : Z := fold_right Z.add 0 l.

Lemma bincount_occ x len c : (forall v, In v x -> 0 <= v) -> 0 <= c < len ->
  zlen (bincount x len) = len /\ entry (bincount x len) c = occ x c.
Proof.
  intros Hx Hc. unfold bincount.
  assert (G : forall acc, 0 <= c < zlen acc ->
    zlen (fold_left (fun acc v => scatter_upd acc (Z.max v 0) (fun c => c + 1)) x acc) = zlen acc /\
    zget 0 (fold_left (fun acc v => scatter_upd acc (Z.max v 0) (fun c => c + 1)) x acc) c = zget 0 acc c + occ x c).
  { induction x as [| v x IH]; intros acc Ha; [rewrite occ_nil; cbn [fold_left]; lia |].
    cbn [fold_left]. destruct (IH ltac:(intros; apply Hx; now right) (scatter_upd acc (Z.max v 0) (fun c => c + 1))) as [E1 E2].
    - now rewrite zlen_scatter_upd.
    - rewrite E1, E2, zlen_scatter_upd. split; [reflexivity |]. rewrite occ_cons.
      assert (0 <= v) by (apply Hx; now left).
      rewrite zget_scatter_upd_gen by lia. rewrite Z.max_l by lia.
      destruct (v =? c); cbn [b2z]; lia. }
  destruct (G (full len 0)) as [E1 E2]; [rewrite zlen_full; lia |].
  rewrite E1, zlen_full by lia. split; [reflexivity |]. unfold entry. change (nth (Z.to_nat c) ?l 0) with (zget 0 l c).
  rewrite E2, zget_full by lia. lia.
Qed.

Lemma wrap_range bits x : 0 <= bits -> 0 <= wrap bits x < 2 ^ bits.
Proof. intros. apply Z.mod_pos_bound. now apply Z.pow_pos_nonneg. Qed.

Lemma bincount_weights_fold bits c : 0 <= bits -> forall x w acc,
  (forall v, In v x -> 0 <= v) -> 0 <= c < zlen acc -> 0 <= zget 0 acc c < 2 ^ bits ->
  let r := fold_left (fun acc (xw : Z * Z) => scatter_upd acc (Z.max (fst xw) 0) (fun c => wrap bits (c + snd xw)))
      (combine x w) acc in
  zlen r = zlen acc /\ zget 0 r c = (zget 0 acc c + sum_at Z.add 0 x w c) mod 2 ^ bits.
Proof.
  intros Hb. induction x as [| v x IH]; intros w acc Hx Hc Ha; cbv zeta.
  - cbn [combine fold_left sum_at]. split; [reflexivity |]. rewrite Z.add_0_r. symmetry. now apply Z.mod_small.
  - destruct w as [| u w].
    + cbn [combine fold_left sum_at]. split; [reflexivity |]. rewrite Z.add_0_r. symmetry. now apply Z.mod_small.
    + cbn [combine fold_left sum_at fst snd].
      assert (Hv : 0 <= v) by (apply Hx; now left). rewrite Z.max_l by lia.
      pose proof (zget_scatter_upd_gen _ 0 (fun c => wrap bits (c + u)) acc v c Hv Hc) as E.
      destruct (IH w (scatter_upd acc v (fun c => wrap bits (c + u)))) as [E1 E2].
      * intros; apply Hx; now right.
      * now rewrite zlen_scatter_upd.
      * rewrite E. destruct (v =? c); [now apply wrap_range | exact Ha].
      * rewrite E1, zlen_scatter_upd. split; [reflexivity |]. rewrite E2, E.
        destruct (v =? c); [| reflexivity]. unfold wrap. rewrite Zplus_mod_idemp_l. f_equal. lia.
Qed.

Lemma sum_at_filter {A} (f : A -> Z) (g : A -> bool) c L :
  sum_at Z.add 0 (map f L) (map b2z (map g L)) c = zlen (filter (fun i => g i && (f i =? c)) L).
Proof.
  induction L as [| a L IH]; [reflexivity |]. cbn [map sum_at filter]. rewrite IH.
  destruct (f a =? c), (g a); cbn [andb b2z]; rewrite ?zlen_cons; lia.
Qed.

(** grouping by a value *)
Lemma total_group {A} (f : A -> Z) (h : Z -> Z) N L : (forall a, In a L -> 0 <= f a < N) ->
  total (map (fun c => h c * zlen (filter (fun a => f a =? c) L)) (arange N)) =
  total (map (fun a => h (f a)) L).
Proof.
  assert (Z0 : forall M : list Z, total (map (fun c => h c * 0) M) = 0).
  { induction M as [| m M IHM]; [reflexivity |]. cbn [map total fold_right]. unfold total in IHM. rewrite IHM. lia. }
  assert (P : forall (a b : Z -> Z) M, total (map (fun c => a c + b c) M) = total (map a M) + total (map b M)).
  { induction M as [| m M IHM]; [reflexivity |]. cbn [map]. unfold total in *. cbn [fold_right]. rewrite IHM. lia. }
  assert (O : forall v M, NoDup M -> In v M -> total (map (fun c => h c * b2z (v =? c)) M) = h v).
  { induction M as [| m M IHM]; intros ND HI; [destruct HI |].
    inversion ND; subst. cbn [map]. unfold total in *. cbn [fold_right].
    destruct (Z.eqb_spec v m) as [-> | N0].
    - assert (E : map (fun c => h c * b2z (m =? c)) M = map (fun c => h c * 0) M).
      { apply map_ext_in. intros c Hc. destruct (Z.eqb_spec m c); [subst; contradiction | reflexivity]. }
      rewrite E, Z0. cbn [b2z]. lia.
    - destruct HI as [-> | HI]; [contradiction |]. rewrite IHM by assumption. cbn [b2z]. lia. }
  induction L as [| a L IH]; intros HL.
  - cbn [map filter]. change (zlen []) with 0. rewrite Z0. reflexivity.
  - cbn [map]. unfold total at 2. cbn [fold_right]. fold (total (map (fun a => h (f a)) L)).
    rewrite <- IH by (intros; apply HL; now right).
    rewrite <- (O (f a) (arange N) (NoDup_arange N)) by (apply In_arange, HL; now left).
    rewrite <- P. f_equal. apply map_ext. intros c. cbn [filter].
    destruct (f a =? c); rewrite ?zlen_cons; cbn [b2z]; lia.
Qed.

Lemma total_occ L : NoDup L -> forall l, (forall v, In v l -> In v L) -> total (map (occ l) L) = zlen l.
Proof.
  intros ND. induction l as [| v l IH]; intros H.
  - rewrite (map_ext _ (fun _ => 0)) by (intros; apply occ_nil).
    clear. induction L; [reflexivity |]. cbn [map]. unfold total in *. cbn [fold_right]. lia.
  - rewrite zlen_cons, <- IH by (intros; apply H; now right).
    assert (HI : In v L) by (apply H; now left). clear IH H.
    revert ND HI. induction L as [| m L IHL]; intros ND HI; [destruct HI |].
    inversion ND; subst. cbn [map]. unfold total in *. cbn [fold_right]. rewrite occ_cons.
    destruct (Z.eqb_spec v m) as [-> | N0]; cbn [b2z].
    + assert (E : map (occ (m :: l)) L = map (occ l) L).
      { apply map_ext_in. intros c Hc. rewrite occ_cons. destruct (Z.eqb_spec m c); [subst; contradiction | reflexivity]. }
      rewrite E. lia.
    + destruct HI as [-> | HI]; [contradiction |]. rewrite IHL by assumption. lia.
Qed.

Section Distr.
  Context {zo : zoob}.

  Lemma jnp_max_spec l : l <> [] -> In (jnp_max l) l /\ forall v, In v l -> v <= jnp_max l.
  Proof.
    destruct l as [| x l]; intros N; [contradiction |]. unfold jnp_max. clear N. revert x.
    induction l as [| y l IH]; intros x; cbn [fold_left].
    - split; [now left |]. intros v [<- | []]. lia.
    - destruct (IH (Z.max x y)) as [A B]. split.
      + destruct A as [A | A].
        * destruct (Z.max_spec x y) as [[_ E] | [_ E]]; rewrite <- A, E; [right; now left | now left].
        * right. now right.
      + intros v [<- | [<- | H]].
        * specialize (B (Z.max x y) (or_introl eq_refl)). lia.
        * specialize (B (Z.max x y) (or_introl eq_refl)). lia.
        * apply B. now right.
  Qed.

  Lemma actual_depth_spec d sp : 1 <= d <= 64 -> zlen sp = heap_size d -> no_stray sp ->
    deepest_leaf sp (tree_actual_depth sp) /\ 0 <= tree_actual_depth sp < d.
  Proof.
    intros Hd Hs W.
    assert (HL : zlen (is_actual_leaf sp true) = 2 ^ d) by (rewrite zlen_is_actual_leaf, Hs; now apply heap_2).
    assert (P2 : 2 <= 2 ^ d) by (change 2 with (2 ^ 1) at 1; apply Z.pow_le_mono_r; lia).
    unfold tree_actual_depth. set (isl := is_actual_leaf sp true) in *.
    set (dep := map2 _ isl _).
    assert (LD : zlen dep = 2 ^ d) by (unfold dep; rewrite zlen_map2, zlen_tree_depths, HL by lia; lia).
    assert (G : forall i, 0 <= i < 2 ^ d -> zget 0 dep i = if zget false isl i then Z.log2 i else 0).
    { intros i Hi. unfold dep. rewrite (zget_map2 _ _ _ _ _ false 0) by (rewrite ?zlen_tree_depths; lia).
      destruct (zget false isl i); [| reflexivity].
      destruct (Z.eq_dec i 0) as [-> | N0]; [rewrite zget_tree_depths_0 by lia; reflexivity |].
      apply zget_tree_depths. lia. }
    assert (LS : forall i, 0 <= i < 2 ^ d -> (zget false isl i = true <-> leaf_node sp i)).
    { intros i Hi. apply C02_is_actual_leaf; [exact W |]. fold isl. lia. }
    assert (RL : forall i, leaf_node sp i -> 1 <= i < 2 ^ d).
    { intros i [R _]. split; [now apply reachable_pos in R |].
      apply reachable_lt in R; [| rewrite Hs; pose proof (heap_pos d); lia].
      rewrite Hs, heap_2 in R by lia. exact R. }
    destruct (jnp_max_spec dep) as [A B]; [intros E; rewrite E in LD; unfold zlen in LD; cbn in LD; lia |].
    set (k := jnp_max dep) in *.
    assert (UB : forall i j, leaf_node sp i -> at_depth i j -> j <= k).
    { intros i j Hl Hj. apply B. apply at_depth_log2 in Hj. subst j. pose proof (RL _ Hl) as Hi.
      replace (Z.log2 i) with (zget 0 dep i); [apply zget_In; lia |].
      rewrite G by lia. now rewrite (proj2 (LS i ltac:(lia)) Hl). }
    destruct (C02_points_land_on_leaves d [] sp sp Hd Hs Hs W) as (Le & _).
    set (e := traverse_tree [] sp sp) in *.
    pose proof (RL _ Le) as He.
    apply (In_zget _ 0) in A as (i & Hi & E). rewrite LD in Hi. rewrite G in E by lia.
    assert (AT : exists i, leaf_node sp i /\ at_depth i k).
    { destruct (zget false isl i) eqn:EL.
      - apply LS in EL; [| lia]. exists i. split; [exact EL |]. rewrite <- E. apply at_depth_exists.
        apply RL in EL. lia.
      - exists e. split; [exact Le |]. pose proof (UB _ _ Le (at_depth_exists e ltac:(lia))) as Q.
        pose proof (Z.log2_nonneg e). replace k with (Z.log2 e) by lia. apply at_depth_exists. lia. }
    split; [now split |].
    destruct AT as (m & Lm & Am). pose proof (at_depth_pos _ _ Am).
    apply at_depth_log2 in Am. apply RL in Lm. split; [lia |]. rewrite <- Am.
    apply Z.log2_lt_pow2; lia.
  Qed.

  Section Points.
    Context (d : Z) (var sp : list Z) (X : list (list Z)).
    Hypothesis Hd : 1 <= d <= 64.
    Hypothesis Hv : zlen var = heap_size d.
    Hypothesis Hs : zlen sp = heap_size d.
    Hypothesis W : no_stray sp.
    Hypothesis HX : zlen X < 2 ^ 64.

    Let points := map (gather zmode) X.
    Let indices := map (fun x => traverse_tree x var sp) X.
    Let isl := is_actual_leaf sp true.
    Let leaves := filter (zget false isl) (arange (2 ^ d)).

    Local Lemma count_points i : points_in d points var sp i = occ indices i.
    Proof.
      unfold indices. rewrite occ_map_filter. unfold points_in, points.
      assert (E : forall l, length (filter (fun x => leaf_of (Z.to_nat d - 1) x var sp 1 =? i)
                   (map (gather zmode) l)) =
                length (filter (fun x => traverse_tree x var sp =? i) l)).
      { induction l as [| x l IH]; [reflexivity |]. cbn [map filter].
        rewrite (leaf_of_traverse d x var sp) by (auto; lia).
        destruct (_ =? i); cbn [length]; now rewrite IH. }
      now rewrite E.
    Qed.

    Local Lemma leaves_spec : lists (leaf_node sp) leaves.
    Proof.
      split; [apply NoDup_filter, NoDup_arange |]. intros i. unfold leaves. rewrite filter_In, In_arange.
      assert (HL : zlen isl = 2 ^ d) by (unfold isl; rewrite zlen_is_actual_leaf, Hs; apply heap_2; lia).
      split.
      - intros [Hi E]. apply (C02_is_actual_leaf sp true i W); [fold isl; lia | exact E].
      - intros L. assert (Hi : 0 <= i < 2 ^ d).
        { destruct L as [R _]. pose proof (reachable_pos _ _ R).
          apply reachable_lt in R; [| rewrite Hs; pose proof (heap_pos d); lia].
          rewrite Hs, heap_2 in R by lia. lia. }
        split; [exact Hi |]. apply (C02_is_actual_leaf sp true i W); [fold isl; lia | exact L].
    Qed.

    Local Lemma distr_entry c : 0 <= c <= zlen X ->
      zlen (points_per_leaf_distr var sp X) = zlen X + 1 /\
      entry (points_per_leaf_distr var sp X) c =
      zlen (filter (fun i => points_in d points var sp i =? c) leaves) mod 256.
    Proof.
      intros Hc. unfold points_per_leaf_distr. fold indices. fold isl.
      set (ct := fold_left _ indices _).
      assert (HN : zlen indices = zlen X) by apply zlen_map.
      destruct (minimal_narrowest (zlen indices) ltac:(lia)) as (_ & HB & _).
      set (bits := minimal_unsigned_bits (zlen indices)) in *.
      pose proof (heap_2 d ltac:(lia)) as H2.
      assert (IB : forall i, In i indices -> 1 <= i < 2 ^ d).
      { intros i Hi. apply in_map_iff in Hi as (x & <- & _). now apply traverse_bounds. }
      assert (CT : zlen ct = 2 ^ d /\ forall i, 0 <= i < 2 ^ d -> zget 0 ct i = occ indices i).
      { assert (G : forall l acc, (forall i, In i l -> 0 <= i) ->
          (forall i, 0 <= i < zlen acc -> 0 <= zget 0 acc i /\ zget 0 acc i + occ l i < 2 ^ bits) ->
          let r := fold_left (fun acc i => scatter_upd acc i (fun c => wrap bits (c + 1))) l acc in
          zlen r = zlen acc /\ forall i, 0 <= i < zlen acc -> zget 0 r i = zget 0 acc i + occ l i).
        { induction l as [| j l IH]; intros acc Hl Ha; cbv zeta.
          - cbn [fold_left]. split; [reflexivity |]. intros. rewrite occ_nil. lia.
          - cbn [fold_left]. assert (Hj : 0 <= j) by (apply Hl; now left).
            destruct (IH (scatter_upd acc j (fun c => wrap bits (c + 1)))) as [E1 E2].
            + intros; apply Hl; now right.
            + intros i Hi. rewrite zlen_scatter_upd in Hi. rewrite zget_scatter_upd_gen by lia.
              destruct (Ha i Hi) as [A1 A2]. rewrite occ_cons in A2. pose proof (occ_nonneg l i).
              destruct (j =? i); cbn [b2z] in A2; [| lia].
              unfold wrap. rewrite Z.mod_small by lia. lia.
            + rewrite E1, zlen_scatter_upd. split; [reflexivity |]. intros i Hi.
              rewrite E2 by (now rewrite zlen_scatter_upd). rewrite zget_scatter_upd_gen by lia.
              destruct (Ha i Hi) as [A1 A2]. rewrite occ_cons in *. pose proof (occ_nonneg l i).
              destruct (j =? i); cbn [b2z] in *; [| lia].
              unfold wrap. rewrite Z.mod_small by lia. lia. }
        pose proof (heap_pos d ltac:(lia)) as HP.
        assert (LF : zlen (full (2 * zlen sp) 0) = 2 ^ d) by (rewrite zlen_full; lia).
        destruct (G indices (full (2 * zlen sp) 0)) as [E1 E2].
        - intros i Hi. apply IB in Hi. lia.
        - intros i Hi. rewrite zget_full_same. pose proof (occ_le indices i). lia.
        - fold ct in E1, E2. split; [lia |]. intros i Hi. rewrite E2 by lia. rewrite zget_full_same. lia. }
      destruct CT as [LC GC].
      assert (HL : zlen isl = 2 ^ d) by (unfold isl; rewrite zlen_is_actual_leaf, Hs; apply heap_2; lia).
      pose proof (zlen_nonneg _ X) as HX0.
      assert (LF : zlen (full (zlen X + 1) 0) = zlen X + 1) by (apply zlen_full; lia).
      destruct (bincount_weights_fold 8 c ltac:(lia) ct (map b2z isl) (full (zlen X + 1) 0)) as [E1 E2].
      - intros v Hv0. apply (In_zget _ 0) in Hv0 as (i & Hi & <-). rewrite LC in Hi. rewrite GC by exact Hi.
        apply occ_nonneg.
      - lia.
      - rewrite zget_full_same. lia.
      - fold (bincount_weights 8 ct (map b2z isl) (zlen X + 1)) in E1, E2.
        split; [lia |]. unfold entry.
        change (nth (Z.to_nat c) ?l 0) with (zget 0 l c). rewrite E2, zget_full_same. change (2 ^ 8) with 256. f_equal.
        rewrite Z.add_0_l.
        rewrite <- (map_zget_arange 0 ct) at 1. rewrite <- (map_zget_arange false isl) at 1. rewrite LC, HL.
        rewrite sum_at_filter. f_equal. unfold leaves.
        assert (FF : forall (P Q R : Z -> bool) l, (forall i, In i l -> P i = Q i && R i) ->
          filter P l = filter R (filter Q l)).
        { intros P Q R l. induction l as [| a l IH]; intros H; [reflexivity |]. cbn [filter].
          rewrite (H a (or_introl eq_refl)), IH by (intros; apply H; now right).
          destruct (Q a); cbn [andb]; [| reflexivity]. cbn [filter]. reflexivity. }
        apply FF. intros i Hi. apply In_arange in Hi. rewrite GC by exact Hi. now rewrite count_points.
    Qed.

    Lemma points_distr c : 0 <= c <= zlen X ->
      exists l, lists (fun i => leaf_node sp i /\ points_in d points var sp i = c) l /\
      entry (points_per_leaf_distr var sp X) c = zlen l mod 256 /\
      (d <= 8 -> entry (points_per_leaf_distr var sp X) c = zlen l).
    Proof.
      intros Hc. exists (filter (fun i => points_in d points var sp i =? c) leaves).
      destruct leaves_spec as [ND IL]. destruct (distr_entry c Hc) as [_ E].
      split; [split; [now apply NoDup_filter |]|].
      - intros i. rewrite filter_In, IL, Z.eqb_eq. tauto.
      - split; [exact E |]. intros H8. rewrite E. apply Z.mod_small.
        split; [apply zlen_nonneg |]. set (f := fun i => _).
        assert (FL : forall l, zlen (filter f l) <= zlen l).
        { induction l as [| a l IH]; [apply Z.le_refl |]. cbn [filter]. destruct (f a); rewrite ?zlen_cons; lia. }
        apply Z.le_lt_trans with (zlen leaves); [apply FL |].
        (* node 0 is not a leaf *)
        unfold leaves. replace (arange (2 ^ d)) with (0 :: tl (arange (2 ^ d))).
        + cbn [filter]. destruct (zget false isl 0) eqn:E0.
          * exfalso. assert (L0 : leaf_node sp 0).
            { apply (C02_is_actual_leaf sp true 0 W); [| exact E0].
              rewrite zlen_is_actual_leaf, Hs. pose proof (heap_pos d ltac:(lia)). lia. }
            destruct L0 as [R _]. apply reachable_pos in R. lia.
          * clear FL. assert (FL : forall (g : Z -> bool) l, zlen (filter g l) <= zlen l).
            { intros g. induction l as [| a l IH]; [apply Z.le_refl |]. cbn [filter]. destruct (g a); rewrite ?zlen_cons; lia. }
            eapply Z.le_lt_trans; [apply FL |].
            assert (PP : 1 <= 2 ^ d <= 256).
            { split; [assert (0 < 2 ^ d) by (apply Z.pow_pos_nonneg; lia); lia |].
              change 256 with (2 ^ 8). apply Z.pow_le_mono_r; lia. }
            assert (LA : zlen (arange (2 ^ d)) = 2 ^ d) by (apply zlen_arange; lia).
            destruct (arange (2 ^ d)) as [| a l]; [unfold zlen in LA; cbn in LA; lia |].
            rewrite zlen_cons in LA. cbn [tl]. lia.
        + assert (P2 : 0 < 2 ^ d) by (apply Z.pow_pos_nonneg; lia).
          unfold arange. destruct (Z.to_nat (2 ^ d)) eqn:EN; [lia |]. reflexivity.
    Qed.

    Lemma points_distr_totals : d <= 8 ->
      zlen (points_per_leaf_distr var sp X) = zlen X + 1 /\
      (forall l, lists (leaf_node sp) l -> total (points_per_leaf_distr var sp X) = zlen l) /\
      total (map (fun c => c * entry (points_per_leaf_distr var sp X) c) (arange (zlen X + 1))) = zlen X.
    Proof.
      intros H8. pose proof (zlen_nonneg _ X) as HX0.
      destruct (distr_entry 0 ltac:(lia)) as [EL _]. split; [exact EL |].
      assert (EC : forall c, 0 <= c <= zlen X -> entry (points_per_leaf_distr var sp X) c =
          zlen (filter (fun i => points_in d points var sp i =? c) leaves)).
      { intros c Hc. destruct (points_distr c Hc) as (l & [ND HI] & _ & E). rewrite E by exact H8.
        destruct leaves_spec as [ND' IL].
        unfold zlen. f_equal. apply Nat.le_antisymm; apply NoDup_incl_length; auto using NoDup_filter.
        - intros i Hi. apply HI in Hi. rewrite filter_In, IL, Z.eqb_eq. tauto.
        - intros i Hi. rewrite filter_In, IL, Z.eqb_eq in Hi. now apply HI. }
      assert (PB : forall a, 0 <= points_in d points var sp a < zlen X + 1).
      { intros a. rewrite count_points. pose proof (occ_nonneg indices a). pose proof (occ_le indices a).
        assert (zlen indices = zlen X) by apply zlen_map. lia. }
      split.
      - intros l [ND HI]. destruct leaves_spec as [ND' IL].
        assert (LL : zlen l = zlen leaves).
        { unfold zlen. f_equal. apply Nat.le_antisymm; apply NoDup_incl_length; auto; intros i Hi.
          - apply IL. now apply HI. - apply HI. now apply IL. }
        rewrite LL. rewrite <- (map_zget_arange 0 (points_per_leaf_distr var sp X)) at 1. rewrite EL.
        transitivity (total (map (fun a : Z => 1) leaves)).
        + rewrite <- (total_group (points_in d points var sp) (fun _ => 1) (zlen X + 1) leaves) by (intros; apply PB).
          f_equal. apply map_ext_in. intros c Hc. apply In_arange in Hc.
          change (zget 0 ?l c) with (entry l c). rewrite EC by lia. lia.
        + clear. induction leaves as [| a m IH]; [reflexivity |]. cbn [map]. unfold total in *.
          cbn [fold_right]. rewrite IH, zlen_cons. lia.
      - transitivity (total (map (points_in d points var sp) leaves)).
        + etransitivity; [| apply (total_group (points_in d points var sp) (fun c => c) (zlen X + 1) leaves); intros; apply PB].
          f_equal. apply map_ext_in. intros c Hc. apply In_arange in Hc. rewrite EC by lia. reflexivity.
        + rewrite (map_ext _ (occ indices)) by (intros; apply count_points).
          destruct leaves_spec as [ND' IL]. rewrite total_occ.
          * apply zlen_map.
          * exact ND'.
          * intros v Hv0. apply IL. apply in_map_iff in Hv0 as (x & <- & _).
            now apply (C02_points_land_on_leaves d x var sp).
    Qed.
  End Points.
End Distr.

(** ** Printing *)

Definition below (j i : Z) (k : nat) : Prop := i / 2 ^ Z.of_nat k = j.

Lemma below_S j i k : 1 <= j -> (below (2 * j) i k \/ below (2 * j + 1) i k) <-> below j i (S k).
Proof.
  intros Hj. unfold below. rewrite Nat2Z.inj_succ, Z.pow_succ_r by lia.
  rewrite (Z.mul_comm 2 (2 ^ _)), <- Z.div_div by (try apply Z.pow_nonzero; lia).
  set (q := i / _). pose proof (Z.div_mod q 2 ltac:(lia)). pose proof (Z.mod_pos_bound q 2 ltac:(lia)). lia.
Qed.
Lemma below_0 j i : below j i 0 <-> i = j.
Proof. unfold below. change (2 ^ Z.of_nat 0) with 1. now rewrite Z.div_1_r. Qed.

Lemma In_complete m : forall j i, 1 <= j ->
  (In i (complete_preorder m j) <-> exists k, (k < m)%nat /\ below j i k).
Proof.
  induction m as [| m IH]; intros j i Hj.
  - cbn [complete_preorder]. split; [intros [] | intros (k & Hk & _); lia].
  - cbn [complete_preorder]. cbn [In]. rewrite in_app_iff, !IH by lia. split.
    + intros [<- | [(k & Hk & B) | (k & Hk & B)]].
      * exists 0%nat. split; [lia |]. now apply below_0.
      * exists (S k). split; [lia |]. apply below_S; [lia | now left].
      * exists (S k). split; [lia |]. apply below_S; [lia | now right].
    + intros ([| k] & Hk & B); [left; symmetry; now apply below_0 |].
      right. apply below_S in B; [| lia]. destruct B as [B | B]; [left | right]; exists k; split; auto; lia.
Qed.

Lemma below_log2 j i k : 1 <= j -> below j i k -> Z.log2 i = Z.log2 j + Z.of_nat k.
Proof.
  intros Hj B. unfold below in B.
  assert (0 < 2 ^ Z.of_nat k) by (apply Z.pow_pos_nonneg; lia).
  assert (2 ^ Z.of_nat k <= i) by (apply Z.nlt_ge; intros L; destruct (Z.lt_ge_cases i 0);
    [assert (i / 2 ^ Z.of_nat k < 0) by (apply Z.div_lt_upper_bound; lia); lia | rewrite Z.div_small in B; lia]).
  rewrite <- B, <- Z.shiftr_div_pow2, Z.log2_shiftr by lia.
  assert (Z.of_nat k <= Z.log2 i) by (apply Z.log2_le_pow2; lia). lia.
Qed.

Lemma below_disjoint j i k k' : 1 <= j -> below (2 * j) i k -> below (2 * j + 1) i k' -> False.
Proof.
  intros Hj B B'. pose proof (below_log2 (2 * j) i k ltac:(lia) B) as L. pose proof (below_log2 (2 * j + 1) i k' ltac:(lia) B') as L'.
  rewrite Z.log2_double in L by lia. rewrite Z.log2_succ_double in L' by lia.
  assert (k = k') by lia. subst k'. unfold below in *. lia.
Qed.

Lemma NoDup_complete m : forall j, 1 <= j -> NoDup (complete_preorder m j).
Proof.
  induction m as [| m IH]; intros j Hj; [constructor |]. cbn [complete_preorder]. constructor.
  - rewrite in_app_iff, !In_complete by lia. intros [(k & _ & B) | (k & _ & B)];
      apply below_log2 in B; try lia; rewrite ?Z.log2_double, ?Z.log2_succ_double in B by lia; lia.
  - assert (D : forall (a b : list Z), NoDup a -> NoDup b -> (forall x, In x a -> ~ In x b) -> NoDup (a ++ b)).
    { induction a as [| x a IHa]; intros b Na Nb H; [exact Nb |]. inversion Na; subst. cbn [app]. constructor.
      - rewrite in_app_iff. intros [Q | Q]; [contradiction |]. apply (H x); [now left | exact Q].
      - apply IHa; auto. intros y Hy. apply H. now right. }
    apply D; [apply IH; lia | apply IH; lia |]. intros x. rewrite !In_complete by lia.
    intros (k & _ & B) (k' & _ & B'). eapply below_disjoint; eauto.
Qed.

Lemma reachable_below sp j i k : 1 <= j -> below j i (S k) -> reachable sp i -> decision sp j /\ reachable sp j.
Proof.
  revert i. induction k as [| k IH]; intros i Hj B R.
  - assert (E : i / 2 = j) by (exact B).
    assert (2 <= i) by (destruct (Z.lt_ge_cases i 2); [exfalso | lia]; pose proof (reachable_pos _ _ R); assert (i = 1) by lia; subst i; change (1 / 2) with 0 in E; lia).
    pose proof (reachable_parent sp i) as Q. subst j. tauto.
  - assert (B2 : below j (i / 2) (S k)).
    { unfold below in *. rewrite Z.div_div by (try apply Z.pow_pos_nonneg; lia).
      rewrite <- Z.pow_succ_r by lia. now rewrite <- Nat2Z.inj_succ. }
    apply (IH (i / 2) Hj B2). pose proof (reachable_pos _ _ R).
    destruct (Z.eq_dec i 1) as [-> | N1].
    + apply below_log2 in B2; [| lia]. change (Z.log2 (1 / 2)) with 0 in B2. pose proof (Z.log2_nonneg j). lia.
    + destruct (reachable_parent sp i ltac:(lia) R); assumption.
Qed.

Section Printing.
  Context {V : Type} (vmode : oob V) (dv : V) (d : Z) (leaf : list V) (var sp : list Z).
  Hypothesis Hd : 1 <= d.
  Hypothesis Hl : zlen leaf = 2 ^ d.
  Hypothesis Hv : zlen var = heap_size d.
  Hypothesis Hs : zlen sp = heap_size d.

  Definition compact_line (l : line V) : Prop :=
    exists p, number l = Zpos p /\ indentation l = drawing p /\
    plink l = if entry sp (Zpos p) =? 0 then (if 2 ^ d <=? 2 * Zpos p then Bottom else NoLink) else Down.

  Definition complete_line (l : line V) : Prop :=
    exists p c, number l = Zpos p /\ indentation l = drawing p /\
    node l = NAll c (entry var (Zpos p)) (entry sp (Zpos p)) (nth (Z.to_nat (Zpos p)) leaf dv) /\
    category_ok sp (Zpos p) c /\
    plink l = if 2 ^ d <=? 2 * Zpos p then NoLink else Down.

  Lemma print_compact m : forall p fuel indent first next,
    (m < fuel)%nat -> Z.of_nat m < d -> 2 ^ (d - 1 - Z.of_nat m) <= Zpos p < 2 ^ (d - Z.of_nat m) ->
    indent ++ first = drawing p -> indent ++ next = drawing_below p ->
    exists lines, print_traverse vmode leaf var sp false fuel (Zpos p) indent first next false = Some lines /\
      map (fun l => (number l, node l)) lines = preorder (decode dv leaf var sp m (Zpos p)) (Zpos p) /\
      Forall compact_line lines.
  Proof.
    induction m as [| m IH]; intros p fuel indent first next Hf Hm Hp E1 E2; (destruct fuel as [| fuel]; [lia |]);
      cbn [print_traverse].
    - assert (PB : Zpos p < 2 ^ d) by (now replace (d - Z.of_nat 0) with d in Hp by lia).
      rewrite (proj2 (Z.leb_gt (zlen leaf) (Zpos p))) by lia. cbn [negb andb].
      assert (Z0 : entry sp (Zpos p) = 0).
      { apply entry_over. rewrite Hs. unfold heap_size. replace (d - 1 - Z.of_nat 0) with (d - 1) in Hp by lia. lia. }
      rewrite !gather_fill_entry by lia. rewrite Z0. cbn [Z.eqb negb orb andb].
      eexists; split; [reflexivity |]. cbn [map number node decode preorder].
      rewrite (gather_in _ _ dv) by lia. split; [reflexivity |].
      constructor; [| constructor]. exists p. cbn [number indentation plink]. split; [reflexivity |].
      split; [exact E1 |]. rewrite Z0, Hl. cbn [Z.eqb]. reflexivity.
    - assert (PB : Zpos p < 2 ^ d).
      { apply Z.lt_le_trans with (1 := proj2 Hp). apply Z.pow_le_mono_r; lia. }
      rewrite (proj2 (Z.leb_gt (zlen leaf) (Zpos p))) by lia. cbn [negb andb].
      rewrite !gather_fill_entry by lia. cbn [decode]. rewrite (gather_in _ _ dv) by lia.
      destruct (entry sp (Zpos p) =? 0) eqn:EZ; cbn [negb orb andb].
      + eexists; split; [reflexivity |]. cbn [map number node preorder]. split; [reflexivity |].
        constructor; [| constructor]. exists p. cbn [number indentation plink]. rewrite EZ, Hl. auto.
      + assert (PW : forall k, 0 <= k -> 2 ^ (k + 1) = 2 * 2 ^ k) by (intros; rewrite Z.pow_add_r by lia; lia).
        replace (d - 1 - Z.of_nat (S m)) with (d - 1 - Z.of_nat m - 1) in Hp by lia.
        replace (d - Z.of_nat (S m)) with (d - Z.of_nat m - 1) in Hp by lia.
        pose proof (PW (d - 1 - Z.of_nat m - 1) ltac:(lia)) as P1. pose proof (PW (d - Z.of_nat m - 1) ltac:(lia)) as P2.
        replace (d - 1 - Z.of_nat m - 1 + 1) with (d - 1 - Z.of_nat m) in P1 by lia.
        replace (d - Z.of_nat m - 1 + 1) with (d - Z.of_nat m) in P2 by lia.
        destruct (IH (xO p) fuel (indent ++ next) [Tee] [Join]) as (ll & L1 & L2 & L3); try lia.
        { rewrite E2. reflexivity. } { rewrite E2. reflexivity. }
        destruct (IH (xI p) fuel (indent ++ next) [Corner] [Blank]) as (lr & R1 & R2 & R3); try lia.
        { rewrite E2. reflexivity. } { rewrite E2. reflexivity. }
        change (2 * Z.pos p) with (Z.pos (xO p)) in *. change (Z.pos p~0 + 1) with (Z.pos (xI p)) in *.
        rewrite L1, R1. eexists; split; [reflexivity |].
        cbn [map number node preorder]. rewrite map_app, L2, R2. split; [reflexivity |].
        constructor; [| apply Forall_app; now split]. exists p. cbn [number indentation plink]. rewrite EZ. auto.
  Qed.

  Lemma print_complete m : forall p fuel indent first next unused,
    (m < fuel)%nat -> Z.of_nat m <= d -> 2 ^ (d - Z.of_nat m) <= Zpos p < 2 ^ (d + 1 - Z.of_nat m) ->
    indent ++ first = drawing p -> indent ++ next = drawing_below p ->
    (if unused : bool then ~ reachable sp (Zpos p) else reachable sp (Zpos p)) ->
    exists lines, print_traverse vmode leaf var sp true fuel (Zpos p) indent first next unused = Some lines /\
      map number lines = complete_preorder m (Zpos p) /\ Forall complete_line lines.
  Proof.
    induction m as [| m IH]; intros p fuel indent first next unused Hf Hm Hp E1 E2 Hu; (destruct fuel as [| fuel]; [lia |]);
      cbn [print_traverse].
    - replace (d - Z.of_nat 0) with d in Hp by lia. rewrite (proj2 (Z.leb_le (zlen leaf) (Zpos p))) by lia.
      exists []. repeat split. constructor.
    - assert (PB : Zpos p < 2 ^ d).
      { apply Z.lt_le_trans with (1 := proj2 Hp). apply Z.pow_le_mono_r; lia. }
      rewrite (proj2 (Z.leb_gt (zlen leaf) (Zpos p))) by lia. cbn [negb andb].
      rewrite !gather_fill_entry by lia. rewrite (gather_in _ _ dv) by lia.
      assert (PW : forall k, 0 <= k -> 2 ^ (k + 1) = 2 * 2 ^ k) by (intros; rewrite Z.pow_add_r by lia; lia).
      replace (d - Z.of_nat (S m)) with (d - Z.of_nat m - 1) in Hp by lia.
      replace (d + 1 - Z.of_nat (S m)) with (d + 1 - Z.of_nat m - 1) in Hp by lia.
      pose proof (PW (d - Z.of_nat m - 1) ltac:(lia)) as P1. pose proof (PW (d + 1 - Z.of_nat m - 1) ltac:(lia)) as P2.
      replace (d - Z.of_nat m - 1 + 1) with (d - Z.of_nat m) in P1 by lia.
      replace (d + 1 - Z.of_nat m - 1 + 1) with (d + 1 - Z.of_nat m) in P2 by lia.
      set (il := entry sp (Z.pos p) =? 0) in *.
      assert (HD : il = false <-> decision sp (Z.pos p)).
      { unfold il. rewrite Z.eqb_neq. unfold decision. split; [intros; split; [lia | assumption] | intros [_ H]; exact H]. }
      assert (CH : forall i, i = Z.pos (xO p) \/ i = Z.pos (xI p) ->
        if unused || il then ~ reachable sp i else reachable sp i).
      { intros i Hi. assert (I2 : 2 <= i /\ i / 2 = Z.pos p) by (destruct Hi; subst i; lia). destruct I2 as [I2 I3].
        destruct (unused || il) eqn:EU.
        - intros R. destruct (reachable_parent sp i I2 R) as [R1 R2]. rewrite I3 in *. apply HD in R2. rewrite R2 in EU.
          rewrite orb_false_r in EU. subst unused. contradiction.
        - apply orb_false_iff in EU as [-> EI]. apply HD in EI. apply reachable_child; rewrite ?I3; assumption. }
      destruct (IH (xO p) fuel (indent ++ next) [Tee] [Join] (unused || il)) as (ll & L1 & L2 & L3); try lia.
      { rewrite E2. reflexivity. } { rewrite E2. reflexivity. } { apply CH. now left. }
      destruct (IH (xI p) fuel (indent ++ next) [Corner] [Blank] (unused || il)) as (lr & R1 & R2 & R3); try lia.
      { rewrite E2. reflexivity. } { rewrite E2. reflexivity. } { apply CH. now right. }
      change (2 * Z.pos p) with (Z.pos (xO p)) in *. change (Z.pos p~0 + 1) with (Z.pos (xI p)) in *.
      rewrite L1, R1. rewrite andb_false_r. eexists; split; [reflexivity |].
      cbn [map number complete_preorder]. rewrite map_app, L2, R2. split; [reflexivity |].
      constructor; [| apply Forall_app; now split].
      eexists p, _. cbn [number indentation node plink]. split; [reflexivity |]. split; [exact E1 |].
      split; [reflexivity |]. split.
      + destruct unused; cbn [category_ok]; [exact Hu |].
        destruct il eqn:EI; cbn [category_ok].
        * split; [exact Hu |]. rewrite <- HD. discriminate.
        * split; [exact Hu |]. now apply HD.
      + change (2 * Z.pos p) with (Z.pos (xO p)). rewrite Hl.
        destruct (Z.leb_spec (2 ^ d) (Z.pos (xO p))) as [L | L].
        * assert (il = true) as ->.
          { unfold il. apply Z.eqb_eq, entry_over. rewrite Hs. pose proof (heap_2 d Hd). lia. }
          cbn [negb orb andb]. rewrite (proj2 (Z.ltb_ge (Z.pos (xO p)) (2 ^ d))) by lia. reflexivity.
        * rewrite (proj2 (Z.ltb_lt (Z.pos (xO p)) (2 ^ d))) by lia. rewrite orb_true_r. reflexivity.
  Qed.

  Lemma preorder_reachable m : forall j, 1 <= j -> reachable sp j ->
    2 ^ (d - 1 - Z.of_nat m) <= j -> Z.of_nat m < d ->
    let l := map fst (preorder (decode dv leaf var sp m j) j) in
    NoDup l /\ forall i, In i l <-> reachable sp i /\ In i (complete_preorder (S m) j).
  Proof.
    assert (STOP : forall j n, 1 <= j -> entry sp j = 0 -> reachable sp j ->
      forall i, In i [j] <-> reachable sp i /\ In i (complete_preorder (S n) j)).
    { intros j n Hj EZ R i. rewrite In_complete by lia. split.
      - intros [<- | []]. split; [exact R |]. exists 0%nat. split; [lia |]. now apply below_0.
      - intros (Ri & [| k] & Hk & B); [left; symmetry; now apply below_0 |].
        apply (reachable_below sp j i k Hj B) in Ri as [[_ D] _]. contradiction. }
    induction m as [| m IH]; intros j Hj R Hb Hm.
    - cbn [decode preorder map fst]. split; [repeat constructor; intros [] |].
      apply STOP; auto. apply entry_over. rewrite Hs. unfold heap_size. now replace (d - 1 - Z.of_nat 0) with (d - 1) in Hb by lia.
    - cbn [decode]. destruct (Z.eqb_spec (entry sp j) 0) as [EZ | EZ].
      + cbn [preorder map fst]. split; [repeat constructor; intros [] |]. now apply STOP.
      + assert (D : decision sp j) by (split; assumption).
        assert (PW : 2 ^ (d - 1 - Z.of_nat m) = 2 * 2 ^ (d - 1 - Z.of_nat (S m))).
        { rewrite <- Z.pow_succ_r by lia. f_equal. lia. }
        destruct (IH (2 * j)) as [NL IL]; [lia | now constructor | lia | lia |].
        destruct (IH (2 * j + 1)) as [NR IR]; [lia | now constructor | lia | lia |].
        pose proof (NoDup_complete (S (S m)) j Hj) as NC.
        cbn [preorder map fst]. rewrite map_app. cbv zeta.
        change (complete_preorder (S (S m)) j) with (j :: complete_preorder (S m) (2 * j) ++ complete_preorder (S m) (2 * j + 1)) in *.
        apply NoDup_cons_iff in NC as [NJ NN]. rewrite in_app_iff in NJ.
        split.
        * constructor; [rewrite in_app_iff, IL, IR; tauto |].
          assert (DA : forall (a b a' b' : list Z), NoDup a -> NoDup b -> NoDup (a' ++ b') ->
            (forall x, In x a -> In x a') -> (forall x, In x b -> In x b') -> NoDup (a ++ b)).
          { intros a b a' b' Na Nb Nab HA HB.
            assert (DJ : forall x, In x a' -> In x b' -> False).
            { clear -Nab. induction a' as [| y a' IHa]; intros x Hx Hy; [destruct Hx |]. cbn [app] in Nab. inversion Nab; subst.
              destruct Hx as [-> | Hx]; [rewrite in_app_iff in *; tauto | eapply IHa; eauto]. }
            induction Na as [| y a Ny Na IHa]; [exact Nb |]. cbn [app]. constructor.
            - rewrite in_app_iff. intros [Q | Q]; [contradiction |]. apply (DJ y); [apply HA; now left | now apply HB].
            - apply IHa. intros x Hx. apply HA. now right. }
          eapply DA; [exact NL | exact NR | exact NN | |]; intros x Hx; [apply IL in Hx | apply IR in Hx]; tauto.
        * intros i. cbn [In]. rewrite !in_app_iff, IL, IR. split; [| tauto]. intros [<- | H]; tauto.
  Qed.

  Lemma print_tree_compact :
    exists lines, print_tree vmode leaf var sp false = Some lines /\
      map (fun l => (number l, node l)) lines = preorder (tree_of dv d (leaf, var, sp)) 1 /\
      Forall compact_line lines /\ lists (reachable sp) (map number lines).
  Proof.
    assert (HLE : d <= 2 ^ d) by (pose proof (Z.pow_gt_lin_r 2 d); lia).
    destruct (print_compact (Z.to_nat (d - 1)) 1 (S (List.length leaf)) [] [] []) as (lines & L1 & L2 & L3); auto.
    { unfold zlen in Hl. lia. } { lia. }
    { rewrite Z2Nat.id by lia. replace (d - 1 - (d - 1)) with 0 by lia. replace (d - (d - 1)) with 1 by lia. lia. }
    exists lines. split; [exact L1 |]. split; [exact L2 |]. split; [exact L3 |].
    destruct (preorder_reachable (Z.to_nat (d - 1)) 1 ltac:(lia) (reach_root sp)) as [ND IN].
    { rewrite Z2Nat.id by lia. replace (d - 1 - (d - 1)) with 0 by lia. lia. } { lia. }
    assert (E : map number lines = map fst (preorder (decode dv leaf var sp (Z.to_nat (d - 1)) 1) 1)).
    { rewrite <- L2, map_map. reflexivity. }
    rewrite E. split; [exact ND |]. intros i. rewrite IN. split; [tauto |]. intros R. split; [exact R |].
    apply In_complete; [lia |]. pose proof (reachable_pos _ _ R) as P.
    pose proof (heap_pos d Hd). apply reachable_lt in R as R2; [| lia]. rewrite Hs, heap_2 in R2 by lia.
    exists (Z.to_nat (Z.log2 i)). pose proof (Z.log2_nonneg i).
    assert (Z.log2 i < d) by (apply Z.log2_lt_pow2; lia). split; [lia |].
    unfold below. rewrite Z2Nat.id by lia. pose proof (Z.log2_spec i ltac:(lia)) as [A B].
    rewrite Z.pow_succ_r in B by lia. symmetry. apply Z.div_unique with (i - 2 ^ Z.log2 i); lia.
  Qed.

  Lemma print_tree_complete :
    exists lines, print_tree vmode leaf var sp true = Some lines /\
      map number lines = complete_preorder (Z.to_nat d) 1 /\
      Forall complete_line lines /\ lists (fun i => 1 <= i < 2 ^ d) (map number lines).
  Proof.
    assert (HLE : d <= 2 ^ d) by (pose proof (Z.pow_gt_lin_r 2 d); lia).
    destruct (print_complete (Z.to_nat d) 1 (S (List.length leaf)) [] [] [] false) as (lines & L1 & L2 & L3); auto.
    { unfold zlen in Hl. lia. } { lia. }
    { rewrite Z2Nat.id by lia. replace (d - d) with 0 by lia. replace (d + 1 - d) with 1 by lia. lia. }
    { constructor. }
    exists lines. split; [exact L1 |]. split; [exact L2 |]. split; [exact L3 |].
    rewrite L2. split; [apply NoDup_complete; lia |]. intros i. rewrite In_complete by lia. split.
    - intros (k & Hk & B). pose proof (below_log2 1 i k ltac:(lia) B) as L. change (Z.log2 1) with 0 in L.
      assert (1 <= i).
      { destruct (Z.lt_ge_cases i 1); [| lia]. exfalso. unfold below in B.
        assert (i / 2 ^ Z.of_nat k <= 0) by (apply Z.div_le_upper_bound; [apply Z.pow_pos_nonneg |]; lia). lia. }
      split; [lia |]. apply Z.log2_lt_pow2; lia.
    - intros [I1 I2]. exists (Z.to_nat (Z.log2 i)). pose proof (Z.log2_nonneg i).
      assert (Z.log2 i < d) by (apply Z.log2_lt_pow2; lia). split; [lia |].
      unfold below. rewrite Z2Nat.id by lia. pose proof (Z.log2_spec i ltac:(lia)) as [A B].
      rewrite Z.pow_succ_r in B by lia. symmetry. apply Z.div_unique with (i - 2 ^ Z.log2 i); lia.
  Qed.
End Printing.
