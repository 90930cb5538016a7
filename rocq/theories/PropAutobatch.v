(** [autobatch] (C29, C30). *)
From Coq Require Import String ZArith List Bool Lia.
From Verif Require Import Base LemBase ModelAutobatch SpecAutobatch ProofAutobatch.
Import ListNotations.
Open Scope Z_scope.

Section Props.
  Context {A : Type} (d : A).

  Lemma expand_axes_for axes (xs : list (arr A)) l : axes_for axes xs l -> expand_axes axes xs = Some l.
  Proof.
    intros [L H]. unfold expand_axes. destruct axes as [k | l'].
    - f_equal. revert l L H. induction xs as [| x xs IH]; intros [| a l] L H; cbn in L; try lia; [reflexivity |].
      cbn [map]. f_equal; [symmetry; apply H; now left |]. apply IH; [lia |]. intros; apply H; now right.
    - subst l'. rewrite L, Nat.eqb_refl. reflexivity.
  Qed.

  (** The number of batches and everything else about a valid call *)
  Lemma batched_call : forall root func max_io in_axes out_axes args ins outs n,
    1 <= max_io -> axes_for in_axes args ins -> axes_for out_axes (func args) outs ->
    valid_call func ins outs n args -> independent d func ins outs n args ->
    exists nb m, (0 < nb)%nat /\ n = (nb * m)%nat /\ (1 <= nb <= Nat.max 1 n)%nat /\
      batched_func d root func max_io in_axes out_axes args =
      Some (func args, Z.of_nat nb, max_io <? Z.of_nat m * unit_io ins outs args (func args)) /\
      (max_io < Z.of_nat m * unit_io ins outs args (func args) -> nb = n) /\
      ((forall v, 1 <= v -> 1 <= root v) -> Z.of_nat n * unit_io ins outs args (func args) <= max_io -> nb = 1%nat).
  Proof.
    intros root func mx in_axes out_axes args ins outs n Hmx AI AO V I.
    pose proof V as V'. destruct V' as [Wa Wr Hi Fa Fr Hb No].
    unfold batched_func. rewrite (expand_axes_for _ _ _ AI), (expand_axes_for _ _ _ AO).
    replace (check_no_nones outs) with true.
    2: { symmetry. apply forallb_forall. intros [a |] Ha; [reflexivity | contradiction]. }
    rewrite (extract_sized n).
    2: { apply Forall2_app; assumption. }
    2: { destruct Hb as [k Hk]. exists k. apply in_or_app. now left. }
    rewrite total_io by assumption.
    destruct (io_bytes_unit d ins outs args (func args) n Wa Wr Fa Fr No) as [EU _]. rewrite EU.
    pose proof (unit_io_nonneg ins outs args (func args) Hi) as HU.
    set (u := unit_io ins outs args (func args)) in *. set (t := Z.of_nat n * u) in *.
    set (lo := Z.max 1 (t / mx + (if t mod mx =? 0 then 0 else 1))).
    assert (Hlo : 1 <= lo) by (unfold lo; lia).
    assert (Htl : t <= lo * mx).
    { unfold lo. pose proof (Z.div_mod t mx ltac:(lia)) as DM. pose proof (Z.mod_pos_bound t mx ltac:(lia)) as MB.
      destruct (Z.eqb_spec (t mod mx) 0); nia. }
    assert (K : exists nb m, (0 < nb)%nat /\ n = (nb * m)%nat /\ (1 <= n -> 1 <= m)%nat /\
      next_divisor root (Z.of_nat n) lo = Z.of_nat nb /\ (Z.of_nat nb <= Z.max 1 (Z.of_nat n)) /\
      (mx < Z.of_nat m * u -> nb = n) /\ ((forall v, 1 <= v -> 1 <= root v) -> t <= mx -> nb = 1%nat)).
    { destruct n as [| n'].
      - exists 1%nat, 0%nat. unfold next_divisor. cbn [Z.of_nat Z.eqb].
        assert (t = 0) by (unfold t; lia).
        assert (E : lo = 1). { unfold lo. rewrite H, Z.div_0_l, Z.mod_0_l by lia. reflexivity. }
        rewrite E. repeat split; lia.
      - set (n := S n') in *. assert (Hn : 1 <= Z.of_nat n) by (unfold n; lia).
        destruct (next_divisor_spec root (Z.of_nat n) lo Hlo Hn) as (B & [m D] & G1 & G2).
        set (k := next_divisor root (Z.of_nat n) lo) in *.
        assert (Hm : 1 <= m) by nia.
        exists (Z.to_nat k), (Z.to_nat m). split; [lia |]. split; [nia |]. split; [lia |].
        split; [lia |]. split; [lia |]. split.
        + intros Hw. destruct (Z.le_gt_cases lo (Z.of_nat n)) as [L | L].
          * exfalso. specialize (G1 L).
            assert (m * u * k <= k * mx) by (unfold t in Htl; nia). rewrite Z2Nat.id in Hw by lia. nia.
          * specialize (G2 L). lia.
        + intros Hr Ht. assert (E : lo = 1).
          { unfold lo. destruct (Z.eq_dec t mx) as [-> | N].
            - rewrite Z.div_same, Z.mod_same by lia. reflexivity.
            - assert (0 <= t) by (unfold t; nia). rewrite Z.div_small by lia.
              destruct (_ =? _); reflexivity. }
          assert (k = 1); [| lia]. unfold k. rewrite E. unfold next_divisor.
          destruct (Z.eqb_spec (Z.of_nat n) 0); [lia |].
          replace (1 * 1 <=? Z.of_nat n) with true by (symmetry; apply Z.leb_le; lia).
          unfold next_divisor_small. specialize (Hr (Z.of_nat n) Hn).
          assert (Er : exists l, range 1 (root (Z.of_nat n) + 1) = 1 :: l).
          { unfold range, arange. replace (Z.to_nat (root (Z.of_nat n) + 1 - 1)) with
              (S (Z.to_nat (root (Z.of_nat n) - 1))) by lia. cbn [seq map]. eexists. reflexivity. }
          destruct Er as [l ->]. cbn [find]. now rewrite Z.mod_1_r. }
    destruct K as (nb & m & Hnb & Hn & Hm & -> & Hle & Hw & H1).
    exists nb, m. split; [exact Hnb |]. split; [exact Hn |]. split; [lia |].
    split; [| split; [exact Hw | exact H1]].
    assert (E1 : (1 <=? Z.of_nat nb) && (Z.of_nat nb <=? Z.max 1 (Z.of_nat n)) = true).
    { apply andb_true_intro. split; apply Z.leb_le; lia. }
    rewrite E1.
    assert (E2 : Z.of_nat n mod Z.of_nat nb = 0).
    { rewrite Hn, Nat2Z.inj_mul, Z.mul_comm. apply Z.mod_mul. lia. }
    rewrite E2. cbn [Z.eqb].
    assert (Et : t = Z.of_nat m * u * Z.of_nat nb) by (unfold t; rewrite Hn; nia).
    rewrite Et, Z.mod_mul by lia. cbn [Z.eqb]. rewrite Z.div_mul by lia.
    replace (negb (mx <? Z.of_nat m * u) || (Z.of_nat n =? Z.of_nat nb)) with true.
    2: { symmetry. destruct (Z.ltb_spec mx (Z.of_nat m * u)) as [L | L]; [| reflexivity]. cbn [negb orb].
      apply Z.eqb_eq. now rewrite (Hw L). }
    rewrite Nat2Z.id. rewrite Hn in V, I.
    destruct (loops_result d func ins outs args nb m Hnb V I) as (result & -> & ->).
    rewrite flat_map_Some, check_same_refl. reflexivity.
  Qed.

  (** C29. The batched function returns what the function returns. *)
  Theorem C29_autobatch : forall root func max_io_nbytes in_axes out_axes args ins outs n,
    1 <= max_io_nbytes -> axes_for in_axes args ins -> axes_for out_axes (func args) outs ->
    valid_call func ins outs n args -> independent d func ins outs n args ->
    exists nbatches warning,
      batched_func d root func max_io_nbytes in_axes out_axes args = Some (func args, nbatches, warning).
  Proof.
    intros root func mx in_axes out_axes args ins outs n H1 H2 H3 H4 H5.
    destruct (batched_call root func mx in_axes out_axes args ins outs n H1 H2 H3 H4 H5)
      as (nb & m & _ & _ & _ & E & _). eauto.
  Qed.

  (** C30. All batches have the same size, and each takes at most max_io_nbytes
      unless it is of size 1 and the user is warned. The warning is not issued
      in other cases. If everything fits there is one batch. *)
  Theorem C30_batches : forall root func max_io_nbytes in_axes out_axes args ins outs n,
    1 <= max_io_nbytes -> axes_for in_axes args ins -> axes_for out_axes (func args) outs ->
    valid_call func ins outs n args -> independent d func ins outs n args ->
    exists nbatches m warning,
      batched_func d root func max_io_nbytes in_axes out_axes args =
        Some (func args, Z.of_nat nbatches, warning) /\
      (1 <= nbatches <= Nat.max 1 n)%nat /\ n = (nbatches * m)%nat /\
      (forall j, (j < nbatches)%nat ->
         let io := io_bytes ins (slices d ins (j * m) m args) (slices d outs (j * m) m (func args)) in
         (io <= max_io_nbytes /\ warning = false) \/ (io > max_io_nbytes /\ m = 1%nat /\ warning = true)) /\
      ((forall v, 1 <= v -> 1 <= root v) -> io_bytes ins args (func args) <= max_io_nbytes -> nbatches = 1%nat).
  Proof.
    intros root func mx in_axes out_axes args ins outs n H1 H2 H3 H4 H5.
    destruct (batched_call root func mx in_axes out_axes args ins outs n H1 H2 H3 H4 H5)
      as (nb & m & Hnb & Hn & Hm & E & Hw & H1b).
    destruct H4 as [Wa Wr Hi Fa Fr Hb No].
    destruct (io_bytes_unit d ins outs args (func args) n Wa Wr Fa Fr No) as [EU ES].
    exists nb, m, (mx <? Z.of_nat m * unit_io ins outs args (func args)). split; [exact E |].
    split; [exact Hm |]. split; [exact Hn |]. split; [| now rewrite EU].
    intros j Hj. cbv zeta. rewrite ES.
    destruct (Z.ltb_spec mx (Z.of_nat m * unit_io ins outs args (func args))) as [L | L]; [right | now left].
    split; [lia |]. split; [| reflexivity]. specialize (Hw L). nia.
  Qed.

  (** C29. A function that computes each point of the result from that point of
      the arguments is independent along the axes: [vmap] is enough. *)
  Theorem C29_pointwise : forall func h ins outs n args,
    pointwise d func h ins outs -> Forall wf args -> Forall2 (sized n) args ins -> ~ In None outs ->
    independent d func ins outs n args.
  Proof.
    intros func h ins outs n args P Wa Fa No a m Hm Ham.
    assert (Ws : Forall wf (slices d ins a m args)).
    { unfold slices. clear -Wa Fa. induction Fa as [| x ax args ins Sx F IH]; [constructor |].
      inversion Wa; subst. cbn [map2]. constructor; auto. destruct ax; auto using wf_slice. }
    assert (Zs : forall (xs : list (arr A)) axes, Forall2 (sized n) xs axes ->
      Forall2 (sized m) (slices d axes a m xs) axes).
    { unfold slices. induction 1 as [| x ax xs axes Sx F IH]; [constructor |]. cbn [map2]. constructor; [| exact IH].
      intros k ->. specialize (Sx k eq_refl). rewrite shp_slice.
      assert (Hk : (k < length (shp x))%nat) by (apply nth_error_Some; congruence).
      pose proof (length_remove k _ Hk). rewrite (nth_error_nth' _ 0%nat) by (rewrite length_insert; lia).
      f_equal. apply nth_insert. lia. }
    destruct (P m _ Hm Ws (Zs _ _ Fa)) as (W1 & S1 & T1).
    destruct (P n args ltac:(lia) Wa Fa) as (W2 & S2 & T2).
    (* points of a slice *)
    assert (TS : forall (xs : list (arr A)) axes i, Forall wf xs -> Forall2 (sized n) xs axes -> (i < m)%nat ->
      takes d axes i (slices d axes a m xs) = takes d axes (a + i) xs).
    { intros xs axes i W F Hi. unfold takes, slices.
      induction F as [| x ax xs axes Sx F IH]; [reflexivity |].
      inversion W as [| ? ? Wx W']; subst. cbn [map2]. rewrite IH by exact W'. f_equal. destruct ax as [k |]; [| reflexivity].
      specialize (Sx k eq_refl).
      assert (Hk : (k < length (shp x))%nat) by (apply nth_error_Some; congruence).
      pose proof (length_remove k _ Hk) as Lr.
      unfold take. rewrite shp_slice, remove_insert by lia. cbn [slice tabulate dty].
      unfold tabulate. f_equal. apply map_ext_in. intros idx Hidx. apply indices_within in Hidx.
      pose proof (within_length _ _ Hidx) as Li.
      change (get d (slice d k a m x) (insert k i idx) = get d x (insert k (a + i)%nat idx)).
      unfold slice. rewrite get_tabulate by now apply within_insert.
      rewrite nth_insert, remove_insert by lia. reflexivity. }
    (* two arrays with the same points are equal *)
    assert (EQ : forall (xs : list (arr A)) axes, Forall wf xs -> Forall2 (sized m) xs axes -> ~ In None axes ->
      forall ys, Forall wf ys -> Forall2 (sized m) ys axes ->
      (forall i, (i < m)%nat -> takes d axes i xs = takes d axes i ys) -> xs = ys).
    { intros xs axes Wx Fx Nx. induction Fx as [| x ax xs axes Sx Fx IH]; intros ys Wy Fy T.
      - inversion Fy. reflexivity.
      - inversion Fy as [| y ax' ys' axes' Sy Fy']; subst. inversion Wx as [| ? ? Wx1 Wx2]; subst.
        inversion Wy as [| ? ? Wy1 Wy2]; subst. unfold takes in T. cbn [map2] in T.
        f_equal.
        + destruct ax as [k |]; [| exfalso; apply Nx; now left].
          specialize (Sx k eq_refl). specialize (Sy k eq_refl).
          assert (Hx : (k < length (shp x))%nat) by (apply nth_error_Some; congruence).
          assert (Hy : (k < length (shp y))%nat) by (apply nth_error_Some; congruence).
          assert (T0 : forall i, (i < m)%nat -> take d k i x = take d k i y).
          { intros i Hi. specialize (T i Hi). apply (f_equal (hd x)) in T. exact T. }
          pose proof (T0 0%nat ltac:(lia)) as E0.
          assert (Er : remove k (shp x) = remove k (shp y)) by exact (f_equal shp E0).
          assert (Es : shp x = shp y).
          { rewrite <- (insert_remove k 0%nat (shp x) Hx), <- (insert_remove k 0%nat (shp y) Hy), Er.
            now rewrite (nth_error_nth _ _ 0%nat Sx), (nth_error_nth _ _ 0%nat Sy). }
          apply (arr_ext d); auto.
          * exact (f_equal dty E0).
          * intros idx Hidx. pose proof (within_nth k _ _ Hidx Hx) as Hi.
            rewrite (nth_error_nth _ _ 0%nat Sx) in Hi.
            pose proof (f_equal (fun z => get d z (remove k idx)) (T0 _ Hi)) as G. cbv beta in G.
            unfold take in G. rewrite !get_tabulate in G by (rewrite <- ?Er; now apply within_remove).
            rewrite insert_remove in G; [exact G |]. now rewrite (within_length _ _ Hidx).
        + apply IH; auto.
          * intros Q; apply Nx; now right.
          * intros i Hi. specialize (T i Hi). exact (f_equal (@tl _) T). }
    apply (EQ _ outs); auto.
    - unfold slices. clear -W2 S2. induction S2 as [| x ax xs axes Sx F IH]; [constructor |].
      inversion W2; subst. cbn [map2]. constructor; auto. destruct ax; auto using wf_slice.
    - intros i Hi. rewrite T1 by exact Hi. rewrite TS by auto. rewrite TS by auto. rewrite T2 by lia. reflexivity.
  Qed.

  (** C29. Whatever the function does, a call that does not raise returns arrays
      with the shapes and types of the result of the function, and is a call
      with equal sizes along the batched axes and no [None] for the results. *)
  Theorem C29_no_silent_errors : forall root func max_io_nbytes in_axes out_axes args ins outs result nbatches warning,
    axes_for in_axes args ins -> axes_for out_axes (func args) outs ->
    batched_func d root func max_io_nbytes in_axes out_axes args = Some (result, nbatches, warning) ->
    map shp result = map shp (func args) /\ map dty result = map dty (func args) /\
    ~ In None outs /\ (exists k, In (Some k) ins) /\
    exists n, Forall2 (sized n) args ins /\ Forall2 (sized n) (func args) outs.
  Proof.
    intros root func mx in_axes out_axes args ins outs result nb w HI HO E. unfold batched_func in E. cbv zeta in E.
    rewrite (expand_axes_for _ _ _ HI), (expand_axes_for _ _ _ HO) in E. destruct HI as [LI _], HO as [LO _].
    destruct (check_no_nones outs) eqn:EN; [| discriminate].
    destruct (extract_size (ins ++ outs) (args ++ func args)) as [size |] eqn:ES; [| discriminate].
    repeat match type of E with (if ?c then _ else None) = _ => destruct c; [| discriminate] end.
    match type of E with match ?x with Some _ => _ | None => _ end = _ => destruct x as [res |] eqn:SC; [| discriminate] end.
    match type of E with (if check_same ?a ?b then _ else _) = _ => destruct (check_same a b) eqn:CS; [| discriminate] end.
    assert (R : check_same (func args) result = true) by (injection E as <- _ _; exact CS).
    clear E CS. split; [| split; [| split; [| split]]].
    - clear -R. unfold check_same in R. apply andb_prop in R as [L R]. apply Nat.eqb_eq in L.
      revert result L R. induction (func args) as [| x l IH]; intros [| y l'] L R; try discriminate L; [reflexivity |].
      cbn [map2 forallb fst snd] in R. apply andb_prop in R as [R1 R2]. apply andb_prop in R1 as [R1 _].
      destruct (list_eq_dec _ _ _) as [EQ |]; [| discriminate]. cbn [map length] in *. f_equal; [congruence |]. apply IH; auto.
    - clear -R. unfold check_same in R. apply andb_prop in R as [L R]. apply Nat.eqb_eq in L.
      revert result L R. induction (func args) as [| x l IH]; intros [| y l'] L R; try discriminate L; [reflexivity |].
      cbn [map2 forallb fst snd] in R. apply andb_prop in R as [R1 R2]. apply andb_prop in R1 as [_ R1].
      unfold dtype_eqb in R1. apply andb_prop in R1 as [R3 R4]. apply String.eqb_eq in R3. apply Z.eqb_eq in R4.
      cbn [map length] in *. f_equal; [destruct (dty x), (dty y); cbn in *; congruence |]. apply IH; auto.
    - intros H. unfold check_no_nones in EN. rewrite forallb_forall in EN. now specialize (EN _ H).
    - unfold scan in SC. destruct (forallb _ _) eqn:FA; [discriminate |]. clear -FA LI.
      revert FA. match goal with |- context [batch ?m] => generalize m end. intros m FA.
      unfold move_axes_out, on_axes, pull_nonbatched in FA.
      revert ins LI FA. induction args as [| x args IH]; intros [| [k |] ins] LI FA; try discriminate LI.
      + discriminate FA.
      + exists k. now left.
      + cbn [map2 map forallb] in FA. destruct (IH ins) as [k Hk]; [now injection LI | exact FA |].
        exists k. now right.
    - exists size.
      assert (G : Forall2 (sized size) (args ++ func args) (ins ++ outs)).
      { assert (LL : length (ins ++ outs) = length (args ++ func args)) by (rewrite !app_length; lia).
        clear -ES LL. unfold extract_size in ES. destruct (sizes _ _) as [[| s l] |] eqn:SZ; try discriminate.
        destruct (forallb _ _) eqn:FA; [| discriminate]. injection ES as ->.
        assert (Q : forall v, In v (size :: l) -> v = size).
        { intros v Hv. rewrite forallb_forall in FA. specialize (FA v Hv). now apply Nat.eqb_eq in FA. }
        clear FA. revert SZ Q. generalize (size :: l). intros sz SZ Q.
        revert LL sz SZ Q. generalize (args ++ func args), (ins ++ outs). intros xs axes. revert xs.
        induction axes as [| [k |] axes IH]; intros [| x xs] LL sz SZ Q; try discriminate LL; constructor.
        - intros k' [= <-]. cbn [sizes] in SZ. destruct (nth_error (shp x) k) as [v |]; [| discriminate].
          destruct (sizes axes xs); [| discriminate]. injection SZ as <-. f_equal. apply Q. now left.
        - cbn [sizes] in SZ. destruct (nth_error (shp x) k) as [v |]; [| discriminate].
          destruct (sizes axes xs) as [sz' |] eqn:SZ'; [| discriminate]. injection SZ as <-.
          apply (IH xs) with (sz := sz'); [now injection LL | exact SZ' |]. intros u Hu. apply Q. now right.
        - intros k' H. discriminate H.
        - cbn [sizes] in SZ. apply (IH xs) with (sz := sz); [now injection LL | exact SZ | exact Q]. }
      clear -G LI. revert G. generalize (func args) as res. intros res G. revert ins LI G. induction args as [| x args IH]; intros [| i ins] LI G; try discriminate LI.
      + split; [constructor | exact G].
      + cbn [app] in G. inversion G; subst. destruct (IH ins) as [G1 G2]; [now injection LI | assumption |].
        split; [now constructor | exact G2].
  Qed.
End Props.
Print Assumptions C29_autobatch.
Print Assumptions C30_batches.
Print Assumptions C29_pointwise.
Print Assumptions C29_no_silent_errors.

(** The number of batches is not always the smallest that respects the limit:
    with 10 points and at least 3 batches it is 10 and not 5. *)
Theorem C30_fewest_refuted :
  ~ (forall n lo k, 1 <= lo <= n -> (k | n) -> lo <= k -> next_divisor Z.sqrt n lo <= k).
Proof.
  intros H. specialize (H 10 3 5 ltac:(lia) ltac:(now exists 2) ltac:(lia)). now apply H.
Qed.
Print Assumptions C30_fewest_refuted.

(** ** An example: the scalar [w] is not batched, [x] has shape (2, n) and is
    batched along its second axis, the result is w x[0] + x[1]. *)
Definition i8 : dtype := mkdtype "int64" 8.
Definition ex_func (args : list (arr Z)) : list (arr Z) :=
  match args with
  | [w; x] => [tabulate (dty x) [nth 1 (shp x) 0%nat]
                (fun idx => get 0 w [] * get 0 x (0%nat :: idx) + get 0 x (1%nat :: idx))]
  | _ => []
  end.
Definition ex_w : arr Z := mkarr [] i8 [10].
Definition ex_x : arr Z := mkarr [2; 6]%nat i8 [1; 2; 3; 4; 5; 6; 7; 8; 9; 10; 11; 12].

Example ex_valid : valid_call ex_func [None; Some 1%nat] [Some 0%nat] 6 [ex_w; ex_x].
Proof.
  constructor.
  - repeat constructor.
  - repeat constructor.
  - intros x [<- | [<- | [<- | []]]]; cbn; lia.
  - repeat constructor; intros k Hk; [discriminate | injection Hk as <-; reflexivity].
  - repeat constructor; intros k Hk; injection Hk as <-; reflexivity.
  - exists 1%nat. right. now left.
  - intros [H | []]. discriminate.
Qed.

Example ex_independent : independent 0 ex_func [None; Some 1%nat] [Some 0%nat] 6 [ex_w; ex_x].
Proof.
  intros a m Hm Ham. unfold slices. cbn [map2 ex_func]. f_equal.
  apply (arr_ext 0); [apply wf_tabulate | apply wf_slice | reflexivity | reflexivity |].
  intros idx Hi. change (within idx [m]) in Hi.
  inversion Hi as [| i j r s Hij Hr]; subst. inversion Hr; subst.
  rewrite get_tabulate by exact Hi. unfold slice.
  rewrite !get_tabulate; [reflexivity | ..];
    unfold within, insert, remove; cbn; repeat first [apply Forall2_nil | apply Forall2_cons]; lia.
Qed.

(** 6 points of 24 bytes each in at most 50 bytes: 3 batches of 2 points. *)
Example ex_batches :
  batched_func 0 Z.sqrt ex_func 50 (inr [None; Some 1%nat]) (inl 0%nat) [ex_w; ex_x] =
  Some ([mkarr [6%nat] i8 [17; 28; 39; 50; 61; 72]], 3, false) /\
  ex_func [ex_w; ex_x] = [mkarr [6%nat] i8 [17; 28; 39; 50; 61; 72]].
Proof. split; reflexivity. Qed.

(** In at most 20 bytes: 6 batches and a warning. *)
Example ex_warning :
  batched_func 0 Z.sqrt ex_func 20 (inr [None; Some 1%nat]) (inl 0%nat) [ex_w; ex_x] =
  Some ([mkarr [6%nat] i8 [17; 28; 39; 50; 61; 72]], 6, true).
Proof. reflexivity. Qed.

(** Arrays of different sizes raise, and so does [None] as axis of a result. *)
Example ex_errors :
  batched_func 0 Z.sqrt ex_func 50 (inl 0%nat) (inl 0%nat) [ex_x; ex_x] = None /\
  batched_func 0 Z.sqrt ex_func 50 (inr [None; Some 1%nat]) (inr [None]) [ex_w; ex_x] = None.
Proof. split; reflexivity. Qed.
