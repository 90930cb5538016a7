(** Moves between admissible structures. *)
From Coq Require Import ZArith List Bool Lia Reals Lra Classical_Prop.
From Verif Require Import Base LemBase ModelJaxext ModelGrove ModelStep SpecTree
  SpecRange SpecForest SpecRun SpecPosterior SpecProposal SpecExact SpecMH SpecChance SpecBalance SpecErgodic Laws
  ProofTree ProofRange ProofRoute ProofProposal ProofStep ProofRun ProofForest ProofTransition ProofMoves
  PropForest PropExact PropMH ProofChance ProofProb ProofShape ProofBalance
  ProofDetailed PropBalance.
Import ListNotations.
Open Scope Z_scope.

Lemma Forall2_nth_error A B (P : A -> B -> Prop) : forall l l', Forall2 P l l' -> forall i x y,
  nth_error l i = Some x -> nth_error l' i = Some y -> P x y.
Proof.
  intros l l' H. induction H as [| x y l l' P0 H IH]; intros [| i] a b E1 E2; cbn in *; try discriminate; [congruence |].
  eapply IH; eauto.
Qed.

Lemma firstn_S_nth A : forall m (l : list A) x, nth_error l m = Some x -> firstn (S m) l = firstn m l ++ [x].
Proof.
  induction m as [| m IH]; intros [| y l] x E; cbn in E; try discriminate.
  - injection E as ->. reflexivity.
  - cbn [firstn app]. now rewrite <- (IH l x E).
Qed.

Lemma Forall2_len A B (P : A -> B -> Prop) l l' : Forall2 P l l' -> length l = length l'.
Proof. intros H. induction H; cbn; congruence. Qed.

Lemma some_real : real_rng some_rng.
Proof. constructor; cbn; intros; lra. Qed.

(** ** Structures *)

Lemma size_nonneg : forall T, 0 <= size T.
Proof. induction T; cbn [size]; lia. Qed.

Lemma size_zero : forall T, size T = 0 -> T = DLeaf tt.
Proof.
  intros [[] | v c l r]; [reflexivity |]. cbn [size]. pose proof (size_nonneg l). pose proof (size_nonneg r). lia.
Qed.

Lemma size_grows : forall T T', grows_to T T' -> size T' = size T + 1.
Proof. intros T T' H. induction H; cbn [size]; lia. Qed.

Lemma can_shrink : forall T, size T <> 0 -> exists T', grows_to T' T.
Proof.
  induction T as [u | v c l IHl r IHr]; cbn [size]; [lia |]. intros _.
  destruct (Z.eq_dec (size l) 0) as [El | El].
  - destruct (Z.eq_dec (size r) 0) as [Er | Er].
    + rewrite (size_zero _ El), (size_zero _ Er). eexists. apply grow_here.
    + destruct (IHr Er) as [r' H]. eexists. apply grow_right. exact H.
  - destruct (IHl El) as [l' H]. eexists. apply grow_left. exact H.
Qed.

Lemma zlen_filter A (h : A -> bool) l : zlen (filter h l) <= zlen l.
Proof. unfold zlen. induction l as [| x l IH]; cbn [filter length]; [lia |]. destruct (h x); cbn [length]; lia. Qed.

Lemma filled_enough p c : forall T levels l, filled p c levels T l -> c <= zlen l.
Proof.
  induction T as [u | v cut l IHl r IHr]; intros [| levels] pts; cbn [filled]; try lia; try contradiction.
  intros (_ & H & _). apply IHl in H. pose proof (zlen_filter _ (fun x : Z -> Z => x v <? cut) pts). lia.
Qed.

Lemma filled_shrink p c : forall T T', grows_to T T' -> forall levels l, filled p c levels T' l -> filled p c levels T l.
Proof.
  intros T T' G. induction G as [v cut | v cut l l' r G IH | v cut l r r' G IH]; intros levels pts H.
  - cbn [filled]. now apply filled_enough in H.
  - destruct levels; cbn [filled] in *; [contradiction |]. destruct H as (H1 & H2 & H3). auto.
  - destruct levels; cbn [filled] in *; [contradiction |]. destruct H as (H1 & H2 & H3). auto.
Qed.

(** ** Structures and arrays *)

Lemma leaf_unit k : nth k (@nil unit) tt = tt.
Proof. destruct (nth k [] tt). reflexivity. Qed.

Section Arrays.
  Variables (var sp : list Z).
  Hypothesis NS : no_stray sp.

  Lemma not_below i j : 1 <= i -> ~ decision sp i -> under i j -> j <> i -> ~ reachable sp j.
  Proof. intros Hi D [E | [b H]] N R; [congruence |]. apply D. eapply reachable_above; eauto. Qed.

  Lemma grown_arrays p c : zlen var = zlen sp -> forall levels i T' pts, 1 <= i -> (i + 1) * 2 ^ Z.of_nat levels <= 2 * zlen sp ->
    reachable sp i -> 1 <= c -> (forall x v, In x pts -> 0 <= v < p -> 0 <= x v) ->
    grows_to (decode tt [] var sp levels i) T' -> filled p c levels T' pts ->
    exists n v cut, leaf_node sp n /\ under i n /\ n < zlen sp /\ 1 <= cut /\
      T' = decode tt [] (put var n v) (put sp n cut) levels i.
  Proof.
    intros LV. induction levels as [| levels IH]; intros i T' pts Hi Hz R Hc HP G HF.
    - cbn [decode] in G. inversion G; subst. cbn [filled] in HF. contradiction.
    - assert (P2 : 0 < 2 ^ Z.of_nat levels) by (apply Z.pow_pos_nonneg; lia).
      rewrite Nat2Z.inj_succ, Z.pow_succ_r in Hz by lia.
      cbn [decode] in G. destruct (Z.eqb_spec (entry sp i) 0) as [E | E].
      + inversion G as [v cut E1 E2 | |]; subst. cbn [filled] in HF. destruct HF as (Hv & H1 & H2).
        assert (C1 : 1 <= cut).
        { destruct levels as [| levels']; cbn [filled] in H1;
          (destruct (filter (fun x => x v <? cut) pts) as [| x l] eqn:EF; [unfold zlen in H1; cbn [length] in H1; lia |];
           assert (Hx : In x (filter (fun x => x v <? cut) pts)) by (rewrite EF; now left);
           apply filter_In in Hx; destruct Hx as [Hx Hl]; apply Z.ltb_lt in Hl; specialize (HP x v Hx Hv); lia). }
        assert (ND : ~ decision sp i) by (intros [_ D]; contradiction).
        assert (NB : forall j, j = 2 * i \/ j = 2 * i + 1 -> entry sp j = 0).
        { intros j Hj. destruct (Z.eq_dec (entry sp j) 0) as [Z0 | Z0]; auto. exfalso.
          apply (not_below i j); auto; try lia.
          - destruct Hj as [-> | ->]; right; [exists false | exists true]; constructor.
          - apply NS. split; [lia | exact Z0]. }
        exists i, v, cut. split; [split; auto |]. split; [now left |]. split; [nia |]. split; [exact C1 |].
        cbn [decode]. rewrite (entry_put sp i cut i), (entry_put var i v i), Z.eqb_refl by nia.
        destruct (Z.eqb_spec cut 0); [lia |].
        assert (DL : forall j, j = 2 * i \/ j = 2 * i + 1 -> decode tt [] (put var i v) (put sp i cut) levels j = DLeaf tt).
        { intros j Hj. destruct levels; cbn [decode]; rewrite leaf_unit; [reflexivity |].
          rewrite entry_put by nia. destruct (Z.eqb_spec j i); [lia |]. rewrite NB by auto. reflexivity. }
        rewrite !DL by auto. reflexivity.
      + assert (D : decision sp i) by (split; auto).
        inversion G as [| v cut l l' r G' E1 E2 | v cut l r r' G' E1 E2]; subst;
          cbn [filled] in HF; destruct HF as (Hv & H1 & H2).
        * destruct (IH (2 * i) l' (filter (fun x => x (entry var i) <? entry sp i) pts)) as (n & v & cut & LN & U & HN & HC & ->);
            [lia | nia | now constructor | exact Hc | intros x w Hx; apply filter_In in Hx; now apply HP | exact G' | exact H1 |].
          exists n, v, cut. assert (Un : n <> i /\ 1 <= n).
          { pose proof (reachable_pos _ _ (proj1 LN)). split; [| lia]. intros ->. now apply LN. }
          split; auto. split; [apply (under_trans_child i false); unfold child; cbn [b2z]; now rewrite Z.add_0_r |].
          split; auto. split; auto. cbn [decode]. rewrite !entry_put by lia.
          destruct (Z.eqb_spec i n); [lia |]. destruct (Z.eqb_spec (entry sp i) 0); [contradiction |].
          f_equal. symmetry. apply decode_ext; [lia | |]; intros j Hj; [| intros _]; rewrite entry_put; try lia;
            try (destruct (Z.eqb_spec j n) as [-> | ]; [exfalso; exact (under_disjoint i n Hi U Hj) | reflexivity]);
            destruct Hj as [-> | [b Hd]]; try lia; apply descends_gt in Hd; lia.
        * destruct (IH (2 * i + 1) r' (filter (fun x => negb (x (entry var i) <? entry sp i)) pts)) as (n & v & cut & LN & U & HN & HC & ->);
            [lia | nia | now constructor | exact Hc | intros x w Hx; apply filter_In in Hx; now apply HP | exact G' | exact H2 |].
          exists n, v, cut. assert (Un : n <> i /\ 1 <= n).
          { pose proof (reachable_pos _ _ (proj1 LN)). split; [| lia]. intros ->. now apply LN. }
          split; auto. split; [now apply (under_trans_child i true) |].
          split; auto. split; auto. cbn [decode]. rewrite !entry_put by lia.
          destruct (Z.eqb_spec i n); [lia |]. destruct (Z.eqb_spec (entry sp i) 0); [contradiction |].
          f_equal. symmetry. apply decode_ext; [lia | |]; intros j Hj; [| intros _]; rewrite entry_put; try lia;
            try (destruct (Z.eqb_spec j n) as [-> | ]; [exfalso; exact (under_disjoint i n Hi Hj U) | reflexivity]);
            destruct Hj as [-> | [b Hd]]; try lia; apply descends_gt in Hd; lia.
  Qed.

  Lemma pruned_arrays : forall levels i T, 1 <= i ->
    zlen sp <= i * 2 ^ Z.of_nat levels ->
    grows_to T (decode tt [] var sp levels i) ->
    exists n, decision sp n /\ ~ decision sp (2 * n) /\ ~ decision sp (2 * n + 1) /\ under i n /\
      T = decode tt [] var (put sp n 0) levels i.
  Proof.
    induction levels as [| levels IH]; intros i T Hi Hz G.
    - cbn [decode] in G. inversion G.
    - rewrite Nat2Z.inj_succ, Z.pow_succ_r in Hz by lia.
      cbn [decode] in G. destruct (Z.eqb_spec (entry sp i) 0) as [E | E]; [inversion G |].
      assert (D : decision sp i) by (split; auto). pose proof (decision_lt _ _ D) as Di.
      assert (LF : forall j, decode tt [] var sp levels j = DLeaf tt -> zlen sp <= j * 2 ^ Z.of_nat levels -> ~ decision sp j).
      { intros j Hd Hj DJ. pose proof (decision_lt _ _ DJ). destruct levels; cbn [decode] in Hd.
        - change (2 ^ Z.of_nat 0) with 1 in Hj. lia.
        - destruct (Z.eqb_spec (entry sp j) 0); [| discriminate]. now apply DJ. }
      inversion G as [v cut E1 E2 | v cut l l' r G' E1 E2 | v cut l r r' G' E1 E2]; subst.
      + exists i. split; auto. split; [apply LF; auto; nia |]. split; [apply LF; auto; nia |]. split; [now left |].
        cbn [decode]. rewrite entry_put, Z.eqb_refl by lia. rewrite leaf_unit. reflexivity.
      + destruct (IH (2 * i) l) as (n & D1 & D2 & D3 & U & ->); auto; try nia.
        exists n. split; auto. split; auto. split; auto.
        split; [apply (under_trans_child i false); unfold child; cbn [b2z]; now rewrite Z.add_0_r |].
        pose proof (decision_lt _ _ D1). pose proof (proj1 D1).
        assert (n <> i). { intros ->. destruct U as [U | [b U]]; [lia |]. apply descends_gt in U; lia. }
        cbn [decode]. rewrite entry_put by lia. destruct (Z.eqb_spec i n); [lia |].
        destruct (Z.eqb_spec (entry sp i) 0); [contradiction |]. f_equal. symmetry.
        apply decode_ext; [lia | | reflexivity]. intros j Hj. rewrite entry_put; try lia;
            try (destruct (Z.eqb_spec j n) as [-> | ]; [exfalso; exact (under_disjoint i n Hi U Hj) | reflexivity]);
            destruct Hj as [-> | [b Hd]]; try lia; apply descends_gt in Hd; lia.
      + destruct (IH (2 * i + 1) r) as (n & D1 & D2 & D3 & U & ->); auto; try nia.
        exists n. split; auto. split; auto. split; auto.
        split; [now apply (under_trans_child i true) |].
        pose proof (decision_lt _ _ D1). pose proof (proj1 D1).
        assert (n <> i). { intros ->. destruct U as [U | [b U]]; [lia |]. apply descends_gt in U; lia. }
        cbn [decode]. rewrite entry_put by lia. destruct (Z.eqb_spec i n); [lia |].
        destruct (Z.eqb_spec (entry sp i) 0); [contradiction |]. f_equal. symmetry.
        apply decode_ext; [lia | | reflexivity]. intros j Hj. rewrite entry_put; try lia;
            try (destruct (Z.eqb_spec j n) as [-> | ]; [exfalso; exact (under_disjoint i n Hi Hj U) | reflexivity]);
            destruct Hj as [-> | [b Hd]]; try lia; apply descends_gt in Hd; lia.
  Qed.

  (** points in the leaves *)
  Lemma filled_points p c : forall levels i l, 1 <= i -> zlen sp <= i * 2 ^ Z.of_nat levels ->
    filled p c levels (decode tt [] var sp levels i) l ->
    forall j, leaf_node sp j -> under i j ->
      c <= zlen (filter (fun x => leaf_of levels x var sp i =? j) l).
  Proof.
    assert (ALL : forall (l : list (Z -> Z)) i, filter (fun _ => i =? i) l = l).
    { intros l i. rewrite Z.eqb_refl. induction l; cbn [filter]; congruence. }
    assert (FM : forall (h f f' : (Z -> Z) -> bool) l, (forall x, h x = true -> f x = true -> f' x = true) ->
      zlen (filter f (filter h l)) <= zlen (filter f' l)).
    { intros h f f' l H. unfold zlen. induction l as [| x l IH]; cbn [filter]; [lia |].
      specialize (H x). destruct (h x); cbn [filter].
      - destruct (f x).
        + rewrite H by auto. cbn [length]. lia.
        + destruct (f' x); cbn [length]; lia.
      - destruct (f' x); cbn [length]; lia. }
    induction levels as [| levels IH]; intros i l Hi Hz HF j LJ U.
    - change (2 ^ Z.of_nat 0) with 1 in Hz. cbn [decode filled] in HF.
      destruct (Z.eq_dec j i) as [-> | N]; [cbn [leaf_of]; now rewrite ALL |].
      exfalso. apply (not_below i j); auto; [| apply LJ]. intros D. apply decision_lt in D. lia.
    - rewrite Nat2Z.inj_succ, Z.pow_succ_r in Hz by lia. cbn [decode] in HF. cbn [leaf_of].
      destruct (Z.eqb_spec (entry sp i) 0) as [E | E].
      + cbn [filled] in HF. destruct (Z.eq_dec j i) as [-> | N]; [now rewrite ALL |].
        exfalso. apply (not_below i j); auto; [| apply LJ]. intros [_ D]. contradiction.
      + cbn [filled] in HF. destruct HF as (_ & H1 & H2).
        assert (N : j <> i) by (intros ->; apply LJ; split; auto).
        destruct (under_split i j U N) as [U' | U'].
        * specialize (IH (2 * i) _ ltac:(lia) ltac:(lia) H1 j LJ U'). etransitivity; [exact IH |].
          apply FM. intros x -> H. exact H.
        * specialize (IH (2 * i + 1) _ ltac:(lia) ltac:(nia) H2 j LJ U'). etransitivity; [exact IH |].
          apply FM. intros x Hx H. apply negb_true_iff in Hx. now rewrite Hx.
  Qed.

  Lemma leaf_of_below x : forall levels i, under i (leaf_of levels x var sp i).
  Proof.
    induction levels as [| levels IH]; intros i; cbn [leaf_of]; [now left |].
    destruct (_ =? 0); [now left |]. destruct (_ <? _).
    - apply (under_trans_child i false). unfold child. cbn [b2z]. rewrite Z.add_0_r. apply IH.
    - apply (under_trans_child i true). apply IH.
  Qed.

  Lemma points_filled p c : forall levels i l, 1 <= i -> zlen sp <= i * 2 ^ Z.of_nat levels -> reachable sp i ->
    (forall j, decision sp j -> 0 <= entry var j < p) ->
    (forall j, leaf_node sp j -> under i j -> c <= zlen (filter (fun x => leaf_of levels x var sp i =? j) l)) ->
    filled p c levels (decode tt [] var sp levels i) l.
  Proof.
    assert (ALL : forall (l : list (Z -> Z)) i, filter (fun _ => i =? i) l = l).
    { intros l i. rewrite Z.eqb_refl. induction l; cbn [filter]; congruence. }
    assert (FM : forall (h f f' : (Z -> Z) -> bool) l, (forall x, f x = true -> h x = true /\ f' x = true) ->
      zlen (filter f l) <= zlen (filter f' (filter h l))).
    { intros h f f' l H. unfold zlen. induction l as [| x l IH]; cbn [filter]; [lia |].
      specialize (H x). destruct (f x).
      - destruct H as [H1 H2]; auto. rewrite H1. cbn [filter]. rewrite H2. cbn [length]. lia.
      - destruct (h x); cbn [filter]; [destruct (f' x); cbn [length]; lia | lia]. }
    induction levels as [| levels IH]; intros i l Hi Hz R HV H.
    - cbn [decode filled]. change (2 ^ Z.of_nat 0) with 1 in Hz.
      specialize (H i). cbn [leaf_of] in H. rewrite ALL in H. apply H; [split; auto | now left].
      intros D. apply decision_lt in D. lia.
    - rewrite Nat2Z.inj_succ, Z.pow_succ_r in Hz by lia. cbn [decode].
      destruct (Z.eqb_spec (entry sp i) 0) as [E | E].
      + cbn [filled]. specialize (H i). cbn [leaf_of] in H. rewrite E, Z.eqb_refl, ALL in H.
        apply H; [split; auto | now left]. intros [_ D]. contradiction.
      + assert (D : decision sp i) by (split; auto). cbn [filled]. split; [now apply HV |].
        split; apply IH; auto; try nia; try (now constructor); intros j LJ U.
        * etransitivity; [apply (H j LJ); apply (under_trans_child i false); unfold child; cbn [b2z]; now rewrite Z.add_0_r |].
          apply FM. intros x Hx. cbn [leaf_of] in Hx. destruct (Z.eqb_spec (entry sp i) 0); [contradiction |].
          destruct (x (entry var i) <? entry sp i); auto. apply Z.eqb_eq in Hx. exfalso.
          apply (under_disjoint i j Hi U). rewrite <- Hx. apply leaf_of_below.
        * etransitivity; [apply (H j LJ); now apply (under_trans_child i true) |].
          apply FM. intros x Hx. cbn [leaf_of] in Hx. destruct (Z.eqb_spec (entry sp i) 0); [contradiction |].
          destruct (x (entry var i) <? entry sp i); auto. apply Z.eqb_eq in Hx. exfalso.
          apply (fun U' => under_disjoint i j Hi U' U). rewrite <- Hx. apply leaf_of_below.
  Qed.
End Arrays.

Section Moves.
  Context {zo : zoob} {foo : foob rops}.
  Variables (s : @settings rops) (c0 : Z).
  Hypothesis RG : regular s c0.
  Let OK := rg_ok _ _ RG.
  Let d := depth_of s.
  Let ms := i_max_split s.
  Let bits := i_split_bits s.
  Let pts := points_of s.
  Let mp := i_min_points s.

  Lemma d_bounds : 2 <= d <= 64.
  Proof. exact (d_range s (init_of s) OK (reached_init s)). Qed.

  Lemma point_value x v : In x pts -> 0 <= v < zlen ms -> 0 <= x v <= entry ms v.
  Proof.
    intros Hx Hv. apply in_map_iff in Hx as (xs & <- & Hx).
    rewrite (gather_in _ zmode 0) by (rewrite (rg_len _ _ RG); auto). exact (rg_bins _ _ RG xs v Hx Hv).
  Qed.

  Lemma levels_pow : 2 ^ Z.of_nat (Z.to_nat d - 1) = heap_size d.
  Proof. pose proof d_bounds. unfold heap_size. f_equal. lia. Qed.

  (** the trees of a reached state *)
  Lemma reached_admissible b t : reached s b -> In t (trees b) -> admissible s c0 (shape_of s t).
  Proof.
    intros RE Hin. apply In_nth_error in Hin as (m & Ht). pose proof (shape_reached s c0 RG b m t RE Ht) as SH.
    destruct SH as (L1 & L2 & NS & _). unfold shape_of. fold d.
    destruct (decision_dec (t_split t) 1) as [D | D].
    - right. unfold structure. fold d pts. apply points_filled; [lia | | constructor | |].
      + rewrite levels_pow. cbn [rules_of snd] in L2. fold d in L2. lia.
      + intros j DJ. apply (rules_ok s c0 RG b m t RE Ht). exact DJ.
      + intros j LJ _. change (c0 <= points_in d pts (t_var t) (t_split t) j).
        exact (C08_min_points_per_leaf s b t c0 OK RE (nth_error_In _ _ Ht) (rg_min _ _ RG) (ex_intro _ 1 D) j LJ).
    - left. unfold structure. pose proof d_bounds.
      destruct (Z.to_nat d - 1)%nat; cbn [decode]; [now rewrite leaf_unit |].
      destruct (Z.eqb_spec (entry (t_split t) 1) 0); [now rewrite leaf_unit |]. exfalso. apply D. split; [lia | auto].
  Qed.

  Section One.
    Variables (b : @bart rops) (k : key) (m : nat) (t : @tree rops) (g : rng rops).
    Hypothesis RE : reached s b.
    Hypothesis Ht : nth_error (trees b) m = Some t.
    Hypothesis RR : real_rng g.
    Hypothesis S2 : (0 < sigma2 b)%R.
    Let tr := rules_of t.

    Lemma posterior_exists tr' : exists M, is_tree_posterior s b k m g tr' M.
    Proof.
      destruct (like_exists s b S2 k m t Ht (rg_prob _ _ RG) (rg_first _ _ RG) (rules_ok s c0 RG b m t RE Ht) g tr') as [L HL].
      eexists. exists L. split; [exact HL | reflexivity].
    Qed.

    (** a growth to an admissible structure is possible *)
    Lemma grow_chance T : grows_to (shape_of s t) T -> admissible s c0 T ->
      exists q, (0 < q)%R /\ has_probability (draws_of_tree b k m) g (becomes s b k m T) q.
    Proof.
      intros G [-> | HF]; [inversion G |]. fold ms d pts in HF.
      pose proof (shape_reached s c0 RG b m t RE Ht) as SH. fold d tr in SH. pose proof SH as (L1 & L2 & NS & Z0).
      pose proof d_bounds as Hd. pose proof (rg_one _ _ RG) as H1.
      destruct (grown_arrays (fst tr) (snd tr) NS (zlen ms) c0 ltac:(congruence) (Z.to_nat d - 1) 1 T pts) as
        (n & v & cut & LN & _ & HN & HC & ET); auto; try lia.
      { rewrite levels_pow. fold d in L2. lia. }
      { constructor. }
      { intros x w Hx Hw. now apply point_value. }
      pose proof (reachable_pos _ _ (proj1 LN)) as Hn. rewrite L2 in HN.
      set (big := (put (fst tr) n v, put (snd tr) n cut)).
      assert (CN : cut <> 0) by lia.
      pose proof (big_shape d tr n v cut SH LN HN CN) as BS. fold big in BS.
      pose proof (big_decision d tr n v cut SH LN HN CN) as BD. fold big in BD.
      assert (EB : T = structure_of d big) by exact ET.
      assert (DN : decision (snd big) n) by (apply BD; now right).
      assert (NC : forall j, j = 2 * n \/ j = 2 * n + 1 -> ~ decision (snd big) j).
      { intros j Hj Dj. apply BD in Dj. destruct Dj as [Dj | Dj]; [| lia].
        pose proof (NS j Dj) as R. apply reachable_parent in R; [| lia]. destruct R as [_ R].
        replace (j / 2) with n in R by lia. now apply LN in R. }
      destruct BS as (B1 & B2 & BN & B0).
      assert (CL : leaf_node (snd big) (2 * n) /\ leaf_node (snd big) (2 * n + 1)).
      { pose proof (BN n DN) as R. split; (split; [| apply NC; auto]); [constructor 2 | constructor 3]; auto. }
      rewrite EB in HF. unfold structure_of, structure in HF.
      assert (PI : forall j, leaf_node (snd big) j -> c0 <= points_in d pts (fst big) (snd big) j).
      { intros j LJ. unfold points_in.
        pose proof (filled_points (fst big) (snd big) (zlen ms) c0 (Z.to_nat d - 1) 1 pts ltac:(lia)) as FP.
        rewrite levels_pow in FP. specialize (FP ltac:(lia) HF j LJ). unfold zlen in FP at 1. apply FP.
        apply under_root. now apply (reachable_pos (snd big)), LJ. }
      pose proof (PI _ (proj1 CL)) as C1. pose proof (PI _ (proj2 CL)) as C2.
      assert (VX : forall j, 1 <= points_in d pts (fst big) (snd big) j -> exists x, In x pts /\ visits x (fst big) (snd big) j).
      { intros j Hj. unfold points_in in Hj.
        destruct (filter (fun x => leaf_of (Z.to_nat d - 1) x (fst big) (snd big) 1 =? j) pts) as [| x l] eqn:EF;
          [cbn [length] in Hj; lia |].
        assert (Hx : In x (x :: l)) by now left. rewrite <- EF in Hx. apply filter_In in Hx as [Hx El]. apply Z.eqb_eq in El.
        exists x. split; auto. rewrite <- El. eapply route_visits; [| constructor].
        apply leaf_of_route; [lia |]. rewrite levels_pow. lia. }
      destruct (VX (2 * n) ltac:(lia)) as (x & Hx & Vx). destruct (VX (2 * n + 1) ltac:(lia)) as (x' & Hx' & Vx').
      assert (EV : entry (fst big) n = v /\ entry (snd big) n = cut).
      { unfold big. cbn [fst snd]. rewrite !entry_put by lia. now rewrite Z.eqb_refl. }
      destruct EV as [EV EC].
      assert (RV : 0 <= v < zlen ms).
      { assert (FV : forall levels i l, 1 <= i -> zlen (snd big) <= i * 2 ^ Z.of_nat levels ->
          filled (zlen ms) c0 levels (decode tt [] (fst big) (snd big) levels i) l -> under i n -> 0 <= v < zlen ms).
        { induction levels as [| levels IH]; intros i l Hi Hz F U.
          - change (2 ^ Z.of_nat 0) with 1 in Hz. apply decision_lt in DN.
            destruct U as [-> | [b0 U]]; [lia |]. apply descends_gt in U; lia.
          - rewrite Nat2Z.inj_succ, Z.pow_succ_r in Hz by lia. cbn [decode] in F.
            destruct (Z.eq_dec n i) as [E | E].
            + rewrite <- E in F. rewrite EC in F. destruct (Z.eqb_spec cut 0); [lia |]. cbn [filled] in F.
              rewrite EV in F. apply F.
            + assert (DI : decision (snd big) i).
              { destruct U as [U | [b0 U]]; [lia |]. apply (reachable_above _ n i b0); auto. }
              destruct (Z.eqb_spec (entry (snd big) i) 0) as [E0 | _]; [now apply DI in E0 |].
              cbn [filled] in F. destruct F as (_ & F1 & F2).
              destruct (under_split i n U E) as [U' | U'].
              * apply (IH (2 * i) _ ltac:(lia) ltac:(lia) F1 U').
              * apply (IH (2 * i + 1) _ ltac:(lia) ltac:(nia) F2 U'). }
        apply (FV (Z.to_nat d - 1)%nat 1 pts); auto; [lia | rewrite levels_pow; lia | now apply under_root]. }
      assert (VA : valid_rule (fst big) (snd big) ms n).
      { unfold valid_rule, available. rewrite EV, EC.
        pose proof (visits_under _ _ _ n _ false Vx Hn (desc_left n)) as G1.
        pose proof (visits_under _ _ _ n _ true Vx' Hn (desc_right n)) as G2. cbv beta iota in G1, G2.
        rewrite EV, EC in G1, G2.
        pose proof (point_value x v Hx RV) as PX. pose proof (point_value x' v Hx' RV) as PX'.
        split; [lia |]. intros a b0 Ha Hb Ea.
        pose proof (visits_under _ _ _ a _ b0 Vx Ha (desc_down_left a b0 n Hb)) as A1.
        pose proof (visits_under _ _ _ a _ b0 Vx' Ha (desc_down_right a b0 n Hb)) as A2.
        rewrite Ea in A1, A2. destruct b0; lia. }
      assert (RULE : In v (candidates bits ms (above (fst tr) (snd tr) n)) /\ In cut (cuts ms (above (fst tr) (snd tr) n) v)).
      { pose proof (big_above d ltac:(lia) tr n v cut SH LN HN n (proj1 LN)) as EA. fold big in EA.
        rewrite <- EA.
        assert (C : In cut (cuts ms (above (fst big) (snd big) n) v)).
        { rewrite <- EV, <- EC at 1. apply In_cuts; [lia |]. exact VA. }
        split; auto. unfold candidates. apply filter_In. split.
        - apply in_map_iff. exists (Z.to_nat v). unfold zlen in RV. split; [lia |]. apply in_seq. lia.
        - apply orb_true_iff. left. apply orb_true_iff. right. apply negb_true_iff, Z.eqb_neq. destruct (cuts _ _ _); [contradiction | cbn [length]; lia]. }
      assert (GR : In n (growing_leaves d pts mp tr)).
      { pose proof (reached_inv s OK b RE) as I. pose proof (in_setup _ I) as SO.
        pose proof (bd_d s b RE) as ED. pose proof (points_b s b RE) as EP. pose proof (minp_b s b RE) as EM.
        pose proof (In_growing b SO tr) as IG. rewrite ED, EP, EM in IG. apply IG; auto. clear IG.
        split; [exact LN |]. split; [exact HN |].
        intros k0 Ek. rewrite (rg_min _ _ RG) in Ek. injection Ek as <-.
        assert (E : map (fun x => traverse_tree x (fst tr) (snd tr)) (X b) =
                    map (collapse n) (map (fun x => traverse_tree x (fst big) (snd big)) (X b))).
        { rewrite map_map. apply map_ext. intros z. unfold collapse.
          transitivity (traverse_tree z (fst big) (snd tr)).
          - symmetry. apply (traverse_ext d ltac:(lia)); auto; [intros i; reflexivity |].
            intros i Di. pose proof (big_var d tr n v cut SH LN HN i ltac:(destruct Di; lia)) as BV. fold big in BV. rewrite BV.
            destruct (Z.eqb_spec i n) as [-> |]; auto. now apply LN in Di.
          - refine (traverse_prune d ltac:(lia) z _ _ _ _ n _ _ _ _ Hn _ _ DN (NC _ (or_introl eq_refl)) (NC _ (or_intror eq_refl))); auto.
            intros i Hi. pose proof (big_split d tr n v cut SH LN HN i ltac:(lia)) as BSP. fold big in BSP. rewrite BSP.
            destruct (Z.eqb_spec i n) as [-> |]; auto. apply not_decision_0; [lia | apply LN]. }
        rewrite E, occ_collapse_node by lia.
        pose proof (points_in_occ b SO (fst big) (snd big)) as PO. rewrite ED, EP in PO.
        rewrite <- !PO by auto. fold d pts.
        assert (0 <= points_in d pts (fst big) (snd big) n) by (unfold points_in; lia). fold pts d in C1, C2. lia. }
      destruct (posterior_exists tr) as [M HM]. destruct (posterior_exists big) as [M' HM'].
      destruct (C49_growth s c0 b k m t g n v cut M M' RG RE Ht RR S2 GR (proj1 RULE) (proj2 RULE) C1 C2 HM HM')
        as (HP & P1 & P2 & P3 & P4).
      change (structure_of (depth_of s) (put (fst (rules_of t)) n v, put (snd (rules_of t)) n cut)) with (structure_of d big) in HP.
      rewrite EB.
      eexists. split; [| exact HP].
      apply Rmult_lt_0_compat; [exact P1 |]. apply Rmin_glb_lt; [lra |]. apply Rdiv_lt_0_compat; now apply Rmult_lt_0_compat.
    Qed.

    (** any pruning is possible *)
    Lemma prune_chance T : grows_to T (shape_of s t) ->
      exists q, (0 < q)%R /\ has_probability (draws_of_tree b k m) g (becomes s b k m T) q.
    Proof.
      intros G. pose proof (shape_reached s c0 RG b m t RE Ht) as SH. fold d tr in SH. pose proof SH as (L1 & L2 & NS & Z0).
      pose proof d_bounds as Hd.
      destruct (pruned_arrays (fst tr) (snd tr) (Z.to_nat d - 1) 1 T) as (n & D1 & D2 & D3 & _ & ET); auto; try lia.
      { rewrite levels_pow. fold d in L2. lia. }
      set (small := (fst tr, put (snd tr) n 0)).
      destruct (posterior_exists tr) as [M HM]. destruct (posterior_exists small) as [M' HM'].
      destruct (C49_pruning s c0 b k m t g n M M' RG RE Ht RR S2 D1 D2 D3 HM HM') as (HP & P1 & P2 & P3 & P4).
      rewrite ET. eexists. split; [| exact HP].
      apply Rmult_lt_0_compat; [exact P1 |]. apply Rmin_glb_lt; [lra |]. apply Rdiv_lt_0_compat; now apply Rmult_lt_0_compat.
    Qed.

    Lemma chance_possible T : (exists q, (0 < q)%R /\ has_probability (draws_of_tree b k m) g (becomes s b k m T) q) ->
      exists g', real_rng g' /\ differ_only_at (draws_of_tree b k m) g g' /\ becomes s b k m T g'.
    Proof.
      intros (q & Q & HP). exact (probability_possible _ _ _ _ RR (draws_nodup b k m t Ht) HP Q).
    Qed.
  End One.

  (** *** Walks of one tree *)
  Definition move (T T' : dtree unit) : Prop :=
    (grows_to T T' /\ admissible s c0 T') \/ grows_to T' T \/
    (T = DLeaf tt /\ T' = DLeaf tt /\ forall V, admissible s c0 V -> ~ grows_to (DLeaf tt) V).

  Fixpoint walk (n : nat) (T U : dtree unit) : Prop :=
    match n with
    | O => T = U
    | S n => exists V, move T V /\ walk n V U
    end.

  Lemma walk_trans : forall n k T V U, walk n T V -> walk k V U -> walk (n + k) T U.
  Proof.
    induction n as [| n IH]; intros k T V U H1 H2; cbn [walk Nat.add] in *; [now subst |].
    destruct H1 as (W & M & H1). exists W. split; auto. eapply IH; eauto.
  Qed.

  Lemma admissible_shrink T T' : grows_to T T' -> admissible s c0 T' -> admissible s c0 T.
  Proof.
    intros G [-> | H]; [inversion G |]. right. eapply filled_shrink; eauto.
  Qed.

  Lemma walk_down : forall n T, size T = Z.of_nat n -> walk n T (DLeaf tt).
  Proof.
    induction n as [| n IH]; intros T E; cbn [walk]; [now apply size_zero |].
    destruct (can_shrink T) as [T' G]; [lia |]. pose proof (size_grows _ _ G).
    exists T'. split; [right; now left |]. apply IH. lia.
  Qed.

  Lemma walk_up : forall n T, size T = Z.of_nat n -> admissible s c0 T -> walk n (DLeaf tt) T.
  Proof.
    induction n as [| n IH]; intros T E A; [cbn [walk]; symmetry; now apply size_zero |].
    destruct (can_shrink T) as [T' G]; [lia |]. pose proof (size_grows _ _ G).
    replace (S n) with (n + 1)%nat by lia. apply (walk_trans n 1 _ T').
    - apply IH; [lia |]. eapply admissible_shrink; eauto.
    - cbn [walk]. exists T. split; auto. left. auto.
  Qed.

  Lemma walk_rest : forall n, walk (2 * n) (DLeaf tt) (DLeaf tt).
  Proof.
    induction n as [| n IH]; [reflexivity |]. replace (2 * S n)%nat with (2 + 2 * n)%nat by lia.
    apply (walk_trans 2 (2 * n) _ (DLeaf tt)); auto. cbn [walk].
    destruct (classic (exists V, admissible s c0 V /\ grows_to (DLeaf tt) V)) as [(V & A & G) | N].
    - exists V. split; [left; auto |]. exists (DLeaf tt). split; auto. right. now left.
    - assert (M : move (DLeaf tt) (DLeaf tt)) by (right; right; split; [auto | split; [auto |]]; intros V A G; apply N; eauto).
      exists (DLeaf tt). split; auto. exists (DLeaf tt). auto.
  Qed.

  Lemma walk_any T U n : admissible s c0 U -> size T + size U + 2 * Z.of_nat n = Z.of_nat (Z.to_nat (size T + size U) + 2 * n) /\
    walk (Z.to_nat (size T + size U) + 2 * n) T U.
  Proof.
    intros A. pose proof (size_nonneg T). pose proof (size_nonneg U). split; [lia |].
    replace (Z.to_nat (size T + size U) + 2 * n)%nat with (Z.to_nat (size T) + (2 * n + Z.to_nat (size U)))%nat by lia.
    eapply walk_trans; [apply walk_down; lia |]. eapply walk_trans; [apply walk_rest |]. apply walk_up; [lia | exact A].
  Qed.

  (** *** One step of the whole forest *)
  Lemma shapes_length b : reached s b -> forall (g : rng rops) k, real_rng g -> length (trees (step (g := g) b k)) = length (trees b).
  Proof.
    intros RE g k RR. destruct (reached_fields s b RE) as (_ & _ & _ & _ & _ & _ & _ & L & _).
    destruct (reached_fields s _ (reached_step s b g k (real_rng_laws g RR) RE)) as (_ & _ & _ & _ & _ & _ & _ & L' & _).
    unfold zlen in *. lia.
  Qed.

  Lemma one_tree b k m t T (g : rng rops) : reached s b -> nth_error (trees b) m = Some t -> real_rng g -> (0 < sigma2 b)%R ->
    move (shape_of s t) T ->
    exists g', real_rng g' /\ differ_only_at (draws_of_tree b k m) g g' /\ becomes s b k m T g'.
  Proof.
    intros RE Ht RR S2 [[G A] | [G | (E & -> & N)]].
    - apply (chance_possible b k m t g Ht RR). now apply (grow_chance b k m t g).
    - apply (chance_possible b k m t g Ht RR). now apply (prune_chance b k m t g).
    - exists g. split; auto. split; [apply differ_refl |].
      destruct (nth_error (trees (step (g := g) b k)) m) as [t' |] eqn:Et.
      + exists t'. split; auto.
        assert (B : becomes s b k m (shape_of s t') g) by (exists t'; auto).
        destruct (becomes_cases s c0 RG b k m t _ g RE Ht RR B) as [H | [H | H]]; [congruence | |].
        * rewrite E in H. exfalso. apply (N _ (reached_admissible _ t' (reached_step s b g k (real_rng_laws g RR) RE) (nth_error_In _ _ Et)) H).
        * rewrite E in H. inversion H.
      + exfalso. apply nth_error_None in Et. rewrite (shapes_length b RE g k RR) in Et.
        assert (m < length (trees b))%nat by (apply nth_error_Some; congruence). lia.
  Qed.

  Lemma one_step b k Ts : reached s b -> (0 < sigma2 b)%R ->
    Forall2 move (map (shape_of s) (trees b)) Ts ->
    exists g : rng rops, real_rng g /\ map (shape_of s) (trees (step (g := g) b k)) = Ts.
  Proof.
    intros RE S2 F. pose proof (Forall2_len _ _ _ _ _ F) as FL. rewrite map_length in FL.
    assert (IND : forall m, (m <= length (trees b))%nat -> exists g : rng rops, real_rng g /\
      firstn m (map (shape_of s) (trees (step (g := g) b k))) = firstn m Ts).
    { induction m as [| m IH]; intros Hm; [exists some_rng; split; [apply some_real | reflexivity] |].
      destruct IH as (g & RR & E); [lia |].
      destruct (nth_error (trees b) m) as [t |] eqn:Et; [| apply nth_error_None in Et; lia].
      destruct (nth_error Ts m) as [T |] eqn:ET; [| apply nth_error_None in ET; lia].
      assert (M : move (shape_of s t) T).
      { eapply Forall2_nth_error; eauto. rewrite nth_error_map, Et. reflexivity. }
      destruct (one_tree b k m t T g RE Et RR S2 M) as (g' & RR' & D & t' & Et' & ES).
      exists g'. split; auto.
      rewrite (firstn_S_nth _ m (map (shape_of s) (trees (step (g := g') b k))) T).
      - rewrite (firstn_S_nth _ m Ts T ET). f_equal. rewrite <- E, !firstn_map. f_equal. symmetry.
        apply differ_prefix; [lia | exact D].
      - rewrite nth_error_map, Et'. cbn [option_map]. now rewrite ES. }
    destruct (IND (length (trees b)) (le_n _)) as (g & RR & E). exists g. split; auto.
    rewrite firstn_all2 in E by (rewrite map_length, (shapes_length b RE g k RR); lia).
    rewrite firstn_all2 in E by lia. exact E.
  Qed.
End Moves.
