(** Diagnostics and printing of trees: C38, C45, and the link of C05 with the
    checks. *)
From Coq Require Import String ZArith List Bool Lia.
From Verif Require Import Base LemBase ModelJaxext ModelGrove ModelStep ModelDebug SpecTree SpecForest SpecRun
  SpecDebug Laws ProofTree ProofAggregate ProofForest ProofDebug PropTree PropForest Examples ExampleRun.
Import ListNotations.
Open Scope Z_scope.

Section Checks.
  Context {fo : fops} {zo : zoob}.

  (** C38. [describe_error(check_tree(...))] lists each failed check once, and
      nothing else; the error code is zero when all the checks pass. What is
      checked: the types of the arrays, their sizes, the unused node 0, that
      the leaf values are finite, that there are no stray decision nodes. *)
  Theorem C38_check_tree : forall leaf var sp max_split,
    1 <= zlen (tdata var) -> 1 <= zlen (tdata sp) <= 2 ^ 63 -> zlen (tdata max_split) <= 2 ^ 64 ->
    let error := check_tree leaf var sp max_split in
    let failed := describe_error error in
    (In "check_types" failed <->
       ~ (narrowest (zlen (tdata max_split) - 1) (tbits var) /\ tbits sp = tbits max_split))%string /\
    (In "check_sizes" failed <->
       ~ (zlen leaf = 2 * zlen (tdata var) /\ zlen leaf = 2 * zlen (tdata sp)))%string /\
    (In "check_unused_node" failed <-> ~ (entry (tdata var) 0 = 0 /\ entry (tdata sp) 0 = 0))%string /\
    (In "check_leaf_values" failed <-> ~ (forall x, In x leaf -> fisfinite x = true))%string /\
    (In "check_stray_nodes" failed <-> ~ no_stray (tdata sp))%string /\
    NoDup failed /\
    (forall name, In name failed ->
       In name ["check_types"; "check_sizes"; "check_unused_node"; "check_leaf_values"; "check_stray_nodes"]%string) /\
    (error = 0 <-> failed = []).
  Proof.
    intros leaf var sp ms Hv Hs Hm. cbv zeta.
    assert (T : check_types var sp ms = true <->
      narrowest (zlen (tdata ms) - 1) (tbits var) /\ tbits sp = tbits ms).
    { unfold check_types. rewrite andb_true_iff, !Z.eqb_eq.
      pose proof (minimal_narrowest (zlen (tdata ms) - 1) ltac:(lia)) as N. split; intros [A B]; split; auto.
      - now rewrite A.
      - now apply (narrowest_unique (zlen (tdata ms) - 1)). }
    assert (Z1 : check_sizes leaf var sp = true <->
      zlen leaf = 2 * zlen (tdata var) /\ zlen leaf = 2 * zlen (tdata sp)).
    { unfold check_sizes. rewrite andb_true_iff, !Z.eqb_eq. lia. }
    assert (U : check_unused_node var sp = true <-> entry (tdata var) 0 = 0 /\ entry (tdata sp) 0 = 0).
    { unfold check_unused_node. rewrite !(gather_in _ _ 0) by lia. rewrite andb_true_iff, !Z.eqb_eq. reflexivity. }
    assert (L : check_leaf_values leaf = true <-> forall x, In x leaf -> fisfinite x = true)
      by apply forallb_forall.
    pose proof (stray_spec sp Hs) as S1.
    rewrite <- T, <- Z1, <- U, <- L, <- S1. clear. unfold check_tree, checks.
    destruct (check_types var sp ms), (check_sizes leaf var sp), (check_unused_node var sp),
      (check_leaf_values leaf), (check_stray_nodes sp); vm_compute;
      (repeat split; try discriminate; try tauto; try (intros _; discriminate);
       try (intros H; repeat (destruct H as [H | H]; [discriminate |]); contradiction);
       try (intros H; exfalso; apply H; reflexivity);
       try (repeat (constructor; [intros H; repeat (destruct H as [H | H]; [discriminate |]); contradiction |]); constructor);
       try (intros name H; repeat (destruct H as [H | H]; [subst; tauto |]); contradiction)).
  Qed.
  Print Assumptions C38_check_tree.

  (** C38. [check_forest] and [check_trace] check each tree of each forest. *)
  Theorem C38_check_trace : forall trace max_split,
    check_trace trace max_split =
    map (map (fun '(leaf, var, sp) => check_tree leaf var sp max_split)) trace.
  Proof.
    intros trace ms. unfold check_trace. apply map_ext. intros trees. unfold check_forest.
    apply map_ext. now intros [[l v] s].
  Qed.
  Print Assumptions C38_check_trace.

  Context {foo : foob fo} {fl : flaws fo}.

  (** C05. The check of a tree sampled by the MCMC never fails but possibly for
      non-finite leaf values. [bits] is the type of the variables chosen by
      [init], the splits have the type of max_split. *)
  Theorem C05_check_tree : forall s b t bits, settings_ok s -> reached s b -> In t (trees b) ->
    narrowest (zlen (i_max_split s) - 1) bits ->
    let error := check_tree (t_leaf t) (mktarray bits (t_var t)) (mktarray (i_split_bits s) (t_split t))
                   (mktarray (i_split_bits s) (i_max_split s)) in
    (forall name, In name (describe_error error) -> name = "check_leaf_values"%string) /\
    ((forall x, In x (t_leaf t) -> fisfinite x = true) -> error = 0).
  Proof.
    intros s b t bits OK R Ht NB. cbv zeta.
    destruct (C05_forest_well_formed s b OK R) as [_ W]. destruct (W t Ht) as (L & Hv & Hs & U1 & U2 & NS).
    pose proof (ok_depth s OK) as HD. pose proof (ok_p s OK) as HP.
    assert (P : 1 <= 2 ^ (depth_of s - 1) <= 2 ^ 63).
    { unfold depth_of. split; [assert (0 < 2 ^ (zlen (i_p_nonterminal s) + 1 - 1)) by (apply Z.pow_pos_nonneg; lia); lia |].
      apply Z.pow_le_mono_r; lia. }
    assert (P2 : 2 ^ depth_of s = 2 * 2 ^ (depth_of s - 1)).
    { rewrite <- Z.pow_succ_r by (unfold depth_of; lia). f_equal. lia. }
    destruct (C38_check_tree (t_leaf t) (mktarray bits (t_var t)) (mktarray (i_split_bits s) (t_split t))
       (mktarray (i_split_bits s) (i_max_split s))) as (A1 & A2 & A3 & A4 & A5 & _ & A6 & A7);
      cbn [tdata tbits] in *; try lia.
    assert (ONLY : forall name, In name (describe_error (check_tree (t_leaf t) (mktarray bits (t_var t))
         (mktarray (i_split_bits s) (t_split t)) (mktarray (i_split_bits s) (i_max_split s)))) ->
       name = "check_leaf_values"%string).
    { intros name H. pose proof (A6 name H) as [<- | [<- | [<- | [<- | [<- | []]]]]]; [| | | reflexivity |]; exfalso.
      - apply A1 in H. apply H. auto.
      - apply A2 in H. apply H. lia.
      - apply A3 in H. apply H. auto.
      - apply A5 in H. now apply H. }
    split; [exact ONLY |]. intros FIN. apply A7.
    destruct (describe_error _) as [| name l] eqn:E; [reflexivity |]. exfalso.
    rewrite (ONLY name (or_introl eq_refl)) in A4. apply (proj1 A4); [now left | exact FIN].
  Qed.
  Print Assumptions C05_check_tree.
End Checks.

(** C05, with real numbers: the checks never fail. *)
Theorem C05_check_tree_real : forall {zo : zoob} {foo : foob rops} (s : @settings rops) b t bits,
  settings_ok s -> reached s b -> In t (trees b) -> narrowest (zlen (i_max_split s) - 1) bits ->
  check_tree (t_leaf t) (mktarray bits (t_var t)) (mktarray (i_split_bits s) (t_split t))
    (mktarray (i_split_bits s) (i_max_split s)) = 0.
Proof.
  intros zo foo s b t bits OK R Ht NB. apply (C05_check_tree s b t bits OK R Ht NB). reflexivity.
Qed.
Print Assumptions C05_check_tree_real.

(** A tree with a wrong type, a value in the unused node, and a stray node *)
Example C38_check_example :
  describe_error (@check_tree xops zclip [0; 0; 1; 2; 0; 0; 0; 0] (mktarray 16 [0; 0; 0; 0]) (mktarray 8 [1; 0; 3; 0])
    (mktarray 8 [5; 7])) = ["check_types"; "check_unused_node"; "check_stray_nodes"]%string /\
  @check_tree xops zclip [0; 0; 1; 2; 0; 0; 0; 0] (mktarray 8 [0; 0; 0; 0]) (mktarray 8 [0; 3; 0; 0])
    (mktarray 8 [5; 7]) = 0 /\
  ~ no_stray [1; 0; 3; 0] /\ no_stray [0; 3; 0; 0].
Proof.
  split; [reflexivity |]. split; [reflexivity |]. split.
  - intros H. apply (@stray_spec zclip (mktarray 8 [1; 0; 3; 0])) in H; [discriminate H | split; discriminate].
  - apply (@stray_spec zclip (mktarray 8 [0; 3; 0; 0])); [split; discriminate | reflexivity].
Qed.

Section Distr.
  Context {zo : zoob}.

  (** C38. [forest_depth_distr] counts each tree at the depth of its deepest
      leaf. *)
  Theorem C38_depths : forall d split_trees,
    1 <= d <= 64 -> (forall sp, In sp split_trees -> zlen sp = heap_size d /\ no_stray sp) ->
    depth_distribution d split_trees (forest_depth_distr (heap_size d) split_trees).
  Proof.
    intros d sts Hd H. exists (map tree_actual_depth sts).
    assert (A : forall sp, In sp sts -> deepest_leaf sp (tree_actual_depth sp) /\ 0 <= tree_actual_depth sp < d).
    { intros sp Hsp. destruct (H sp Hsp). now apply actual_depth_spec. }
    assert (ED : round_log2 (heap_size d) + 1 = d).
    { unfold heap_size. rewrite round_log2_pow2; lia. }
    assert (R : forall k, In k (map tree_actual_depth sts) -> 0 <= k < d).
    { intros k Hk. apply in_map_iff in Hk as (sp & <- & Hsp). now apply A. }
    split; [| split; [| split; [exact R |]]].
    - clear R. induction sts as [| sp sts IH]; [constructor |]. cbn [map]. constructor.
      + apply A. now left.
      + apply IH; intros; [apply H | apply A]; now right.
    - unfold forest_depth_distr. rewrite ED. apply (bincount_occ _ d 0); [intros v Hv; apply R in Hv |]; lia.
    - intros k Hk. unfold forest_depth_distr. rewrite ED. apply bincount_occ; [intros v Hv; apply R in Hv; lia | lia].
  Qed.
  Print Assumptions C38_depths.

  Theorem C38_trace_depths : forall d trace,
    1 <= d <= 64 -> (forall forest sp, In forest trace -> In sp forest -> zlen sp = heap_size d /\ no_stray sp) ->
    Forall2 (depth_distribution d) trace (trace_depth_distr (heap_size d) trace).
  Proof.
    intros d trace Hd. unfold trace_depth_distr. induction trace as [| f trace IH]; intros H; [constructor |].
    cbn [map]. constructor.
    - apply C38_depths; [exact Hd |]. intros sp Hsp. apply (H f); [now left | exact Hsp].
    - apply IH. intros g sp Hg. apply H. now right.
  Qed.
  Print Assumptions C38_trace_depths.

  (** C38. Entry [c] of [points_per_leaf_distr] is the number of leaves with
      [c] points, computed with 8 bits, hence right if the tree has depth up
      to 8. *)
  Theorem C38_points : forall d var sp X c,
    1 <= d <= 64 -> zlen var = heap_size d -> zlen sp = heap_size d -> no_stray sp ->
    zlen X < 2 ^ 64 -> 0 <= c <= zlen X ->
    exists l, lists (fun i => leaf_node sp i /\ points_in d (map (gather zmode) X) var sp i = c) l /\
      entry (points_per_leaf_distr var sp X) c = zlen l mod 256 /\
      (d <= 8 -> entry (points_per_leaf_distr var sp X) c = zlen l).
  Proof. intros d var sp X c Hd Hv Hs W HX Hc. now apply points_distr. Qed.
  Print Assumptions C38_points.

  (** C38. It sums to the number of leaves and its first moment is the number
      of points. *)
  Theorem C38_points_totals : forall d var sp X,
    1 <= d <= 8 -> zlen var = heap_size d -> zlen sp = heap_size d -> no_stray sp ->
    zlen X < 2 ^ 64 ->
    zlen (points_per_leaf_distr var sp X) = zlen X + 1 /\
    (forall l, lists (leaf_node sp) l ->
       fold_right Z.add 0 (points_per_leaf_distr var sp X) = zlen l) /\
    fold_right Z.add 0 (map (fun c => c * entry (points_per_leaf_distr var sp X) c) (arange (zlen X + 1))) = zlen X.
  Proof. intros d var sp X Hd Hv Hs W HX. apply (points_distr_totals d); auto; lia. Qed.
  Print Assumptions C38_points_totals.

  (** C38. [forest_points_per_leaf_distr] is the sum over the trees. *)
  Theorem C38_forest_points : forall d trees X,
    1 <= d <= 8 ->
    (forall var sp, In (var, sp) trees -> zlen var = heap_size d /\ zlen sp = heap_size d /\ no_stray sp) ->
    zlen X < 2 ^ 64 ->
    points_distribution d (map (gather zmode) X) trees (forest_points_per_leaf_distr trees X).
  Proof.
    intros d trees X Hd H HX. pose proof (zlen_nonneg _ X) as HX0. split.
    { rewrite zlen_map. unfold forest_points_per_leaf_distr.
      assert (G : forall trees acc,
        (forall var sp, In (var, sp) trees -> zlen var = heap_size d /\ zlen sp = heap_size d /\ no_stray sp) ->
        zlen acc = zlen X + 1 ->
        zlen (fold_left (fun distr tree => map2 Z.add distr (points_per_leaf_distr (fst tree) (snd tree) X)) trees acc)
        = zlen X + 1).
      { clear trees H. induction trees as [| [var sp] trees IH]; intros acc H HA; [exact HA |].
        cbn [fold_left fst snd]. apply IH; [intros v s Hin; apply H; now right |].
        destruct (H var sp (or_introl eq_refl)) as (Hv & Hs & W).
        destruct (C38_points_totals d var sp X) as (L3 & _); auto. rewrite zlen_map2. lia. }
      apply G; [exact H |]. apply zlen_full. lia. }
    rewrite zlen_map. intros c Hc. unfold forest_points_per_leaf_distr.
    assert (G : forall trees acc,
      (forall var sp, In (var, sp) trees -> zlen var = heap_size d /\ zlen sp = heap_size d /\ no_stray sp) ->
      zlen acc = zlen X + 1 -> exists ls,
      Forall2 (fun '(var, sp) l =>
        lists (fun i => leaf_node sp i /\ points_in d (map (gather zmode) X) var sp i = c) l) trees ls /\
      entry (fold_left (fun distr tree => map2 Z.add distr (points_per_leaf_distr (fst tree) (snd tree) X)) trees acc) c
      = entry acc c + fold_right Z.add 0 (map zlen ls)).
    { clear trees H. induction trees as [| [var sp] trees IH]; intros acc H HA.
      - exists []. split; [constructor |]. cbn [fold_left map fold_right]. lia.
      - destruct (H var sp (or_introl eq_refl)) as (Hv & Hs & W).
        destruct (C38_points d var sp X c) as (l & L1 & _ & L2); auto; [lia |].
        destruct (C38_points_totals d var sp X) as (L3 & _); auto.
        cbn [fold_left fst snd].
        destruct (IH (map2 Z.add acc (points_per_leaf_distr var sp X))) as (ls & F & E).
        + intros v s Hin. apply H. now right.
        + rewrite zlen_map2. lia.
        + exists (l :: ls). split; [now constructor |]. rewrite E. cbn [map fold_right]. rewrite <- L2 by lia.
          unfold entry. change (nth (Z.to_nat c) ?l 0) with (zget 0 l c).
          rewrite (zget_map2 _ _ _ _ _ 0 0) by lia. lia. }
    destruct (G trees (full (zlen X + 1) 0) H) as (ls & F & E).
    - apply zlen_full. pose proof (zlen_nonneg _ X). lia.
    - exists ls. split; [exact F |]. rewrite E. unfold entry. change (nth (Z.to_nat c) ?l 0) with (zget 0 l c).
      rewrite zget_full_same. lia.
  Qed.
  Print Assumptions C38_forest_points.

  Theorem C38_trace_points : forall d trace X,
    1 <= d <= 8 ->
    (forall forest var sp, In forest trace -> In (var, sp) forest ->
       zlen var = heap_size d /\ zlen sp = heap_size d /\ no_stray sp) ->
    zlen X < 2 ^ 64 ->
    Forall2 (points_distribution d (map (gather zmode) X)) trace (trace_points_per_leaf_distr trace X).
  Proof.
    intros d trace X Hd H HX. unfold trace_points_per_leaf_distr. revert H.
    induction trace as [| f trace IH]; intros H; [constructor |]. cbn [map]. constructor.
    - apply C38_forest_points; [exact Hd | | exact HX]. intros var sp Hin. apply (H f); [now left | exact Hin].
    - apply IH. intros g var sp Hg. apply H. now right.
  Qed.
  Print Assumptions C38_trace_points.

  (** C38 is false for deeper trees: a full tree of depth 10 with one datapoint
      has 511 empty leaves, counted as 255. *)
  Theorem C38_points_refuted : exists d var sp X c l,
    1 <= d <= 64 /\ zlen var = heap_size d /\ zlen sp = heap_size d /\ no_stray sp /\
    0 <= c <= zlen X /\
    lists (fun i => leaf_node sp i /\ points_in d (map (gather zmode) X) var sp i = c) l /\
    entry (points_per_leaf_distr var sp X) c <> zlen l.
  Proof.
    set (sp := 0 :: repeat 1 511). set (var := repeat 0 512). set (X := [[0]]).
    assert (W : no_stray sp).
    { apply (stray_spec (mktarray 8 sp)); [split; discriminate |]. vm_compute. reflexivity. }
    assert (Hv : zlen var = heap_size 10) by (vm_compute; reflexivity).
    assert (Hs : zlen sp = heap_size 10) by (vm_compute; reflexivity).
    assert (C : (let il := is_actual_leaf sp true in
      forallb (fun i => zget false il i && (points_in 10 (map (gather zmode) X) var sp i =? 0))
      (map (Z.add 513) (arange 511))) = true) by (vm_compute; reflexivity).
    assert (L5 : zlen sp = 512) by (vm_compute; reflexivity).
    assert (HX : zlen X = 1) by reflexivity.
    clearbody sp var X.
    destruct (C38_points 10 var sp X 0) as (l & L & E & _); try assumption; try lia.
    exists 10, var, sp, X, 0, l. split; [lia |]. split; [exact Hv |]. split; [exact Hs |]. split; [exact W |].
    split; [lia |]. split; [exact L |].
    intros Q. assert (B : zlen l < 256) by (rewrite <- Q, E; apply Z.mod_pos_bound; lia).
    assert (I : incl (map (Z.add 513) (arange 511)) l).
    { intros i Hi. apply L. cbv zeta in C.
      rewrite forallb_forall in C. specialize (C i Hi). apply andb_true_iff in C as [C1 C2].
      apply Z.eqb_eq in C2. split; [| exact C2]. apply (C02_is_actual_leaf sp true i W); [| exact C1].
      apply in_map_iff in Hi as (k & <- & Hk). apply In_arange in Hk.
      rewrite zlen_is_actual_leaf. lia. }
    apply NoDup_incl_length in I.
    - rewrite map_length, length_arange in I. unfold zlen in B. lia.
    - apply FinFun.Injective_map_NoDup; [intros a b H; lia | apply NoDup_arange].
  Qed.
  Print Assumptions C38_points_refuted.
End Distr.

(** Depth 3: root and right child are decision nodes; three leaves, with 1, 2
    and 0 points *)
Example C38_distr_example :
  zlen ex_var = heap_size 3 /\ zlen ex_split = heap_size 3 /\ no_stray ex_split /\
  @points_per_leaf_distr zclip ex_var ex_split [[9; 5]; [0; 0]; [9; 9]] = [1; 1; 1; 0] /\
  @forest_depth_distr zclip 4 [ex_split; ex_split; [0; 0; 0; 0]] = [1; 0; 2].
Proof.
  repeat split. apply (@stray_spec zclip (mktarray 8 ex_split)); [split; discriminate | reflexivity].
Qed.

(** ** C45 *)

(** Compact printing: the nodes of the tree, depth first and from left to
    right, each with its content; each reachable node once; the drawing shows
    the path from the root; the link says if the node has children or is at the
    last level. *)
Theorem C45_print_tree : forall {V} (vmode : oob V) dv d leaf var sp,
  1 <= d -> zlen leaf = 2 ^ d -> zlen var = heap_size d -> zlen sp = heap_size d ->
  exists lines, print_tree vmode leaf var sp false = Some lines /\
    map (fun l => (number l, node l)) lines = preorder (tree_of dv d (leaf, var, sp)) 1 /\
    lists (reachable sp) (map number lines) /\
    (forall l, In l lines -> exists p, number l = Zpos p /\ indentation l = drawing p /\
       (plink l = Down <-> decision sp (Zpos p)) /\
       (plink l = Bottom <-> ~ decision sp (Zpos p) /\ at_depth (Zpos p) (d - 1))).
Proof.
  intros V vmode dv d leaf var sp Hd Hl Hv Hs.
  destruct (print_tree_compact vmode dv d leaf var sp Hd Hl Hs) as (lines & L1 & L2 & L3 & L4).
  exists lines. repeat split; auto; try apply L4.
  intros l Hin. rewrite Forall_forall in L3. destruct (L3 l Hin) as (p & P1 & P2 & P3). exists p.
  split; [exact P1 |]. split; [exact P2 |].
  assert (D : decision sp (Z.pos p) <-> entry sp (Z.pos p) <> 0) by (unfold decision; intuition lia).
  assert (R : 1 <= Z.pos p < 2 ^ d).
  { split; [lia |]. assert (RR : reachable sp (Z.pos p)) by (apply L4; rewrite <- P1; now apply in_map).
    pose proof (heap_pos d Hd). apply reachable_lt in RR; [| lia]. rewrite Hs, heap_2 in RR by lia. exact RR. }
  assert (B : at_depth (Z.pos p) (d - 1) <-> 2 ^ d <= 2 * Z.pos p).
  { pose proof (heap_2 d Hd) as H2. unfold heap_size in H2. split.
    - intros A. apply at_depth_log2 in A. pose proof (Z.log2_spec (Z.pos p) ltac:(lia)) as [A1 _]. rewrite A in A1. lia.
    - intros A. replace (d - 1) with (Z.log2 (Z.pos p)); [apply at_depth_exists; lia |].
      apply Z.log2_unique; [lia |]. replace (Z.succ (d - 1)) with d by lia. lia. }
  rewrite D, B, P3.
  destruct (Z.eqb_spec (entry sp (Z.pos p)) 0) as [E | E], (Z.leb_spec (2 ^ d) (2 * Z.pos p)) as [Q | Q];
    (split; split; try discriminate; try reflexivity; intuition (try congruence; try lia)).
Qed.
Print Assumptions C45_print_tree.

(** Complete printing: all the slots of the arrays but the first, each with its
    category and content *)
Theorem C45_print_all : forall {V} (vmode : oob V) dv d leaf var sp,
  1 <= d -> zlen leaf = 2 ^ d -> zlen var = heap_size d -> zlen sp = heap_size d ->
  exists lines, print_tree vmode leaf var sp true = Some lines /\
    map number lines = complete_preorder (Z.to_nat d) 1 /\
    lists (fun i => 1 <= i < 2 ^ d) (map number lines) /\
    (forall l, In l lines -> exists p c, number l = Zpos p /\ indentation l = drawing p /\
       node l = NAll c (entry var (Zpos p)) (entry sp (Zpos p)) (nth (Pos.to_nat p) leaf dv) /\
       category_ok sp (Zpos p) c /\
       (plink l = Down <-> 2 * Zpos p < 2 ^ d) /\ plink l <> Bottom).
Proof.
  intros V vmode dv d leaf var sp Hd Hl Hv Hs.
  destruct (print_tree_complete vmode dv d leaf var sp Hd Hl Hs) as (lines & L1 & L2 & L3 & L4).
  exists lines. split; [exact L1 |]. split; [exact L2 |]. split; [exact L4 |].
  intros l Hin. rewrite Forall_forall in L3. destruct (L3 l Hin) as (p & c & P1 & P2 & P3 & P4 & P5).
  exists p, c. repeat split; auto; rewrite P5; destruct (Z.leb_spec (2 ^ d) (2 * Z.pos p)); try discriminate; try lia; auto.
Qed.
Print Assumptions C45_print_all.

Example C45_example :
  print_tree (mkoob true 0) [0; 0; 10; 0; 0; 0; 20; 30] ex_var ex_split false = Some [
    mkline 1 [] Down (NDecision 1 5);
    mkline 2 [Tee] NoLink (NLeaf 10);
    mkline 3 [Corner] Down (NDecision 0 2);
    mkline 6 [Blank; Tee] Bottom (NLeaf 20);
    mkline 7 [Blank; Corner] Bottom (NLeaf 30)] /\
  zlen [0; 0; 10; 0; 0; 0; 20; 30] = 2 ^ 3 /\ zlen ex_var = heap_size 3 /\ zlen ex_split = heap_size 3.
Proof. repeat split. Qed.
