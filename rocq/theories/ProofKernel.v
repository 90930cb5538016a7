(** The update of one tree as a Markov kernel: total probability and
    stationarity. *)
From Coq Require Import ZArith List Bool Lia Reals Lra.
From Verif Require Import Base LemBase ModelJaxext ModelGrove ModelStep SpecTree
  SpecRange SpecForest SpecRun SpecPosterior SpecProposal SpecExact SpecMH SpecChance SpecBalance Laws
  ProofTree ProofStep ProofRun ProofForest ProofTransition ProofMoves PropForest PropMH ProofChance ProofProb ProofShape ProofBalance
  ProofDetailed.
Import ListNotations.
Open Scope Z_scope.

(** ** Sums *)

Definition total {A} (f : A -> R) (l : list A) : R := fold_right Rplus 0%R (map f l).

Lemma total_cons {A} (f : A -> R) a l : total f (a :: l) = (f a + total f l)%R.
Proof. reflexivity. Qed.

Lemma total_app {A} (f : A -> R) l l' : total f (l ++ l') = (total f l + total f l')%R.
Proof. unfold total. induction l as [| a l IH]; cbn [app map fold_right]; [lra | rewrite IH; lra]. Qed.

Lemma total_map {A B} (f : B -> R) (h : A -> B) l : total f (map h l) = total (fun a => f (h a)) l.
Proof. unfold total. now rewrite map_map. Qed.

Lemma total_flat {A B} (f : B -> R) (h : A -> list B) l : total f (flat_map h l) = total (fun a => total f (h a)) l.
Proof.
  induction l as [| a l IH]; [reflexivity |]. cbn [flat_map]. rewrite total_app, IH. reflexivity.
Qed.

Lemma total_le {A} (f f' : A -> R) l : (forall a, In a l -> (f a <= f' a)%R) -> (total f l <= total f' l)%R.
Proof.
  induction l as [| a l IH]; intros H; [cbn; lra |]. unfold total in *. cbn [map fold_right].
  pose proof (H a (or_introl eq_refl)). assert (forall x, In x l -> (f x <= f' x)%R) by (intros; apply H; now right).
  specialize (IH H1). lra.
Qed.

Lemma total_nonneg {A} (f : A -> R) l : (forall a, In a l -> (0 <= f a)%R) -> (0 <= total f l)%R.
Proof.
  intros H. apply Rle_trans with (total (fun _ => 0%R) l).
  - clear H. unfold total. induction l; cbn [map fold_right]; lra.
  - now apply total_le.
Qed.

Lemma total_scale {A} (f : A -> R) x l : total (fun a => x * f a)%R l = (x * total f l)%R.
Proof. unfold total. induction l as [| a l IH]; cbn [map fold_right]; [lra | rewrite IH; lra]. Qed.

Lemma total_const {A} (x : R) (l : list A) : total (fun _ => x) l = (IZR (Z.of_nat (length l)) * x)%R.
Proof.
  unfold total. induction l as [| a l IH]; [symmetry; apply Rmult_0_l |]. cbn [map fold_right]. rewrite IH.
  cbn [length]. rewrite Nat2Z.inj_succ, succ_IZR. lra.
Qed.

(** Sum of the terms of [la], each bounded by a different term of [lb] *)
Lemma sum_injection {A B} (q : A -> R) (wt : B -> R) (f : A -> B -> Prop) : forall la lb, NoDup la ->
  (forall a, In a la -> q a = 0%R \/ exists b, In b lb /\ f a b /\ (q a <= wt b)%R) ->
  (forall a a' b, In a la -> In a' la -> f a b -> f a' b -> a = a') -> (forall b, In b lb -> (0 <= wt b)%R) ->
  (total q la <= total wt lb)%R.
Proof.
  induction la as [| a la IH]; intros lb ND H INJ POS; [now apply total_nonneg |].
  inversion ND as [| ? ? N1 N2]; subst. rewrite total_cons.
  destruct (H a (or_introl eq_refl)) as [E | (b & Hb & Fb & Lb)].
  - rewrite E, Rplus_0_l. apply IH; auto.
    + intros x Hx. apply H. now right.
    + intros x x' b0 H1 H2. apply INJ; now right.
  - apply in_split in Hb. destruct Hb as (l1 & l2 & ->).
    assert (total q la <= total wt (l1 ++ l2))%R.
    { apply IH; auto.
      - intros x Hx. destruct (H x (or_intror Hx)) as [E | (b' & Hb' & Fb' & Lb')]; auto.
        right. exists b'. split; auto. rewrite in_app_iff in *. cbn [In] in Hb'.
        destruct Hb' as [Hb' | [<- | Hb']]; auto. exfalso. apply N1. rewrite (INJ a x b); auto; [now left | now right].
      - intros x x' b0 H1 H2. apply INJ; now right.
      - intros x Hx. apply POS. rewrite in_app_iff in *. cbn [In]. tauto. }
    rewrite total_app in *. rewrite total_cons. lra.
Qed.

Lemma uniform_total : forall (l : list Z), (total (fun _ => 1 / IZR (Z.of_nat (length l))) l <= 1)%R.
Proof.
  intros l. rewrite total_const. destruct l as [| a l]; [cbn [length Z.of_nat]; rewrite Rmult_0_l; apply Rle_0_1 |].
  right. field. apply not_0_IZR. cbn [length]. lia.
Qed.

Lemma rule_total : forall bits ms ab,
  (total (fun v => total (fun c => rule_probability bits ms ab v c) (cuts ms ab v)) (candidates bits ms ab) <= 1)%R.
Proof.
  intros bits ms ab. eapply Rle_trans; [| apply (uniform_total (candidates bits ms ab))].
  apply total_le. intros v Hv.
  set (x := (1 / IZR (Z.of_nat (length (candidates bits ms ab))))%R).
  assert (X : (0 <= x)%R).
  { unfold x. destruct (candidates bits ms ab); [destruct Hv |]. apply Rlt_le, Rdiv_lt_0_compat; [lra |].
    apply IZR_lt. cbn [length]. lia. }
  apply Rle_trans with (total (fun c => x * (1 / IZR (Z.of_nat (length (cuts ms ab v)))))%R (cuts ms ab v)).
  - apply total_le. intros c Hc. unfold rule_probability.
    destruct (in_dec Z.eq_dec v (candidates bits ms ab)); [| contradiction].
    destruct (in_dec Z.eq_dec c (cuts ms ab v)); [| contradiction]. apply Rle_refl.
  - rewrite (total_scale (fun _ => (1 / IZR (Z.of_nat (length (cuts ms ab v))))%R)).
    pose proof (uniform_total (cuts ms ab v)) as U. rewrite <- (Rmult_1_r x) at 2.
    apply Rmult_le_compat_l; auto.
Qed.

(** ** The proposals add up to at most one. *)
Section Kernel.
  Context {zo : zoob} {foo : foob rops}.
  Variables (s : @settings rops) (c0 : Z).
  Hypothesis RG : regular s c0.
  Let OK := rg_ok _ _ RG.
  Let d := depth_of s.
  Let p := nonterminal s.
  Let ms := i_max_split s.
  Let bits := i_split_bits s.
  Let w := rule_probability bits ms.
  Let pts := points_of s.
  Let mp := i_min_points s.

  Section State.
    Variables (b : @bart rops) (k : key) (m : nat) (t : @tree rops) (g : rng rops).
    Hypothesis RE : reached s b.
    Hypothesis Ht : nth_error (trees b) m = Some t.
    Hypothesis RR : real_rng g.
    Hypothesis S2 : (0 < sigma2 b)%R.
    Let tr := rules_of t.
    Let G := growing_leaves d pts mp tr.
    Let SH : shape d tr := shape_reached s c0 RG b m t RE Ht.

    Let D1 : 1 <= d.
    Proof. pose proof (d_range s b OK RE) as H. cbv zeta in H. fold d in H. lia. Qed.

    (** a move: growth of a leaf with a rule, or pruning of a node *)
    Let moves : list (Z * Z * Z + Z) :=
      map inl (flat_map (fun n => flat_map (fun v => map (fun c => (n, v, c)) (cuts ms (above (fst tr) (snd tr) n) v))
        (candidates bits ms (above (fst tr) (snd tr) n))) G)
      ++ map inr (parent_nodes (Z.to_nat d - 1) (snd tr) 1).

    Let weight (x : Z * Z * Z + Z) : R :=
      match x with
      | inl (n, v, c) => q_grow d pts mp p w tr n v c
      | inr _ => q_prune d pts mp tr
      end.

    Let result (T : dtree unit) (x : Z * Z * Z + Z) : Prop :=
      match x with
      | inl (n, v, c) => T = structure_of d (put (fst tr) n v, put (snd tr) n c)
      | inr n => T = structure_of d (fst tr, put (snd tr) n 0)
      end.

    Lemma In_moves_grow : forall n v c, In n G -> In v (candidates bits ms (above (fst tr) (snd tr) n)) ->
      In c (cuts ms (above (fst tr) (snd tr) n) v) -> In (inl (n, v, c)) moves.
    Proof.
      intros n v c Hn Hv Hc. unfold moves. apply in_or_app. left. apply in_map.
      apply in_flat_map. exists n. split; auto. apply in_flat_map. exists v. split; auto.
      apply (in_map (fun c => (n, v, c))). exact Hc.
    Qed.

    Lemma In_moves_prune : forall n, decision (snd tr) n -> ~ decision (snd tr) (2 * n) -> ~ decision (snd tr) (2 * n + 1) ->
      In (inr n) moves.
    Proof.
      intros n H1 H2 H3. unfold moves. apply in_or_app. right. apply in_map.
      destruct SH as (L1 & L2 & NS & Z0).
      apply In_parent_nodes; auto; [lia | now apply levels_fit |]. split; auto. apply under_root, H1.
    Qed.

    Lemma growing_positive : forall n, In n G -> (0 < p (Z.log2 n))%R.
    Proof.
      intros n Hn.
      destruct (In_growing_leaf s b OK RE k m t Ht (rg_prob _ _ RG) (rg_first _ _ RG) (rules_ok s c0 RG b m t RE Ht) n Hn) as [_ H].
      unfold G, growing_leaves in Hn. apply filter_In in Hn. destruct Hn as [_ Hn].
      apply andb_prop in Hn. destruct Hn as [Hn _]. apply Z.ltb_lt in Hn.
      apply (rg_prob _ _ RG). split; [apply Z.log2_nonneg |]. apply Z.log2_lt_pow2; [lia |]. exact Hn.
    Qed.

    Let TOT := SpecPosterior.rsum (map (fun i => p (Z.log2 i)) G).

    Lemma TOT_total : TOT = total (fun i => p (Z.log2 i)) G.
    Proof. reflexivity. Qed.

    Lemma TOT_nonneg : (0 <= TOT)%R.
    Proof. rewrite TOT_total. apply total_nonneg. intros n Hn. apply Rlt_le. now apply growing_positive. Qed.

    Lemma TOT_pos : G <> [] -> (0 < TOT)%R.
    Proof.
      rewrite TOT_total. pose proof growing_positive as GP. destruct G as [| n l]; [congruence |]. intros _.
      rewrite total_cons.
      assert (0 <= total (fun i => p (Z.log2 i)) l)%R.
      { apply total_nonneg. intros x Hx. apply Rlt_le, GP. now right. }
      pose proof (GP n (or_introl eq_refl)). lra.
    Qed.

    Lemma prob_grow_range : (0 <= prob_grow d pts mp tr)%R /\ (0 <= prob_prune d pts mp tr)%R /\
      (prob_grow d pts mp tr + prob_prune d pts mp tr <= 1)%R.
    Proof.
      unfold prob_grow, prob_prune. destruct (growing_leaves _ _ _ _), (is_stump _); lra.
    Qed.

    Lemma w_nonneg : forall ab v c, (0 <= w ab v c)%R.
    Proof.
      intros ab v c. unfold w, rule_probability.
      destruct (in_dec _ _ _) as [H1 |]; [| lra]. destruct (in_dec _ _ _) as [H2 |]; [| lra].
      assert (N : forall (l : list Z) x, In x l -> (0 <= 1 / IZR (Z.of_nat (length l)))%R).
      { intros l x Hx. destruct l; [destruct Hx |]. apply Rlt_le, Rdiv_lt_0_compat; [lra |]. apply IZR_lt. cbn [length]. lia. }
      apply Rmult_le_pos; eapply N; eassumption.
    Qed.

    Lemma q_grow_nonneg : forall n v c, In n G -> (0 <= q_grow d pts mp p w tr n v c)%R.
    Proof.
      intros n v c Hn. unfold q_grow. apply Rmult_le_pos; [apply Rmult_le_pos |].
      - apply prob_grow_range.
      - apply Rlt_le, Rdiv_lt_0_compat; [now apply growing_positive |].
        apply TOT_pos. intros E. rewrite E in Hn. destruct Hn.
      - apply w_nonneg.
    Qed.

    Lemma q_prune_nonneg : (0 <= q_prune d pts mp tr)%R.
    Proof.
      unfold q_prune. apply Rmult_le_pos; [apply prob_grow_range |].
      destruct SH as (L1 & L2 & NS & Z0). unfold structure_of, structure.
      rewrite leaf_parents_nodes by (try lia; now apply levels_fit).
      unfold zlen. destruct (parent_nodes _ _ _) as [| x l].
      - change (Z.of_nat (length (@nil Z))) with 0. unfold Rdiv. rewrite Rinv_0, Rmult_0_r. apply Rle_refl.
      - apply Rlt_le, Rdiv_lt_0_compat; [lra |]. apply IZR_lt. cbn [length]. lia.
    Qed.

    Lemma weight_nonneg : forall x, In x moves -> (0 <= weight x)%R.
    Proof.
      intros x Hx. unfold moves in Hx. apply in_app_or in Hx. destruct Hx as [Hx | Hx].
      - apply in_map_iff in Hx. destruct Hx as (y & <- & Hy). apply in_flat_map in Hy. destruct Hy as (n & Hn & Hy).
        apply in_flat_map in Hy. destruct Hy as (v & Hv & Hy). apply in_map_iff in Hy. destruct Hy as (c & <- & Hc).
        now apply q_grow_nonneg.
      - apply in_map_iff in Hx. destruct Hx as (y & <- & _). apply q_prune_nonneg.
    Qed.

    Lemma grow_total :
      (total (fun n => total (fun v => total (fun c => q_grow d pts mp p w tr n v c) (cuts ms (above (fst tr) (snd tr) n) v))
        (candidates bits ms (above (fst tr) (snd tr) n))) G <= prob_grow d pts mp tr)%R.
    Proof.
      apply Rle_trans with (total (fun n => (prob_grow d pts mp tr / TOT) * p (Z.log2 n))%R G).
      - apply total_le. intros n Hn. set (ab := above (fst tr) (snd tr) n).
        set (x := (prob_grow d pts mp tr * (p (Z.log2 n) / TOT))%R).
        assert (X : (0 <= x)%R).
        { unfold x. apply Rmult_le_pos; [apply prob_grow_range |]. apply Rlt_le, Rdiv_lt_0_compat; [now apply growing_positive |].
          apply TOT_pos. intros E. rewrite E in Hn. destruct Hn. }
        apply Rle_trans with (x * total (fun v => total (fun c => w ab v c) (cuts ms ab v)) (candidates bits ms ab))%R.
        + rewrite <- total_scale. apply total_le. intros v _. rewrite <- total_scale. apply total_le. intros c _.
          apply Rle_refl.
        + apply Rle_trans with (x * 1)%R.
          * apply Rmult_le_compat_l; auto. apply rule_total.
          * right. unfold x, Rdiv. ring.
      - rewrite total_scale. rewrite <- TOT_total. destruct (list_eq_dec Z.eq_dec G []) as [E | E].
        + replace TOT with 0%R by (unfold TOT; rewrite E; reflexivity). rewrite Rmult_0_r. apply prob_grow_range.
        + right. field. pose proof (TOT_pos E). lra.
    Qed.

    Lemma prune_total :
      (total (fun _ => q_prune d pts mp tr) (parent_nodes (Z.to_nat d - 1) (snd tr) 1) <= prob_prune d pts mp tr)%R.
    Proof.
      rewrite total_const. unfold q_prune. destruct SH as (L1 & L2 & NS & Z0). unfold structure_of, structure.
      rewrite leaf_parents_nodes by (try lia; now apply levels_fit). unfold zlen.
      set (N := length _). destruct (Nat.eq_dec N 0) as [E | E].
      - rewrite E. cbn [Z.of_nat]. rewrite Rmult_0_l. apply prob_grow_range.
      - right. field. apply not_0_IZR. lia.
    Qed.

    Lemma weights_total : (total weight moves <= 1)%R.
    Proof.
      unfold moves. rewrite total_app, !total_map, total_flat. destruct prob_grow_range as (_ & _ & H).
      eapply Rle_trans; [| exact H]. apply Rplus_le_compat; [| exact prune_total].
      eapply Rle_trans; [| exact grow_total]. apply total_le. intros n _.
      rewrite total_flat. apply total_le. intros v _. rewrite total_map. apply Rle_refl.
    Qed.

    Lemma min_le : forall x y, (0 <= x -> x * Rmin 1 y <= x)%R.
    Proof. intros x y H. rewrite <- (Rmult_1_r x) at 2. apply Rmult_le_compat_l; auto. apply Rmin_l. Qed.

    (** Each structure with positive probability is the result of a move. *)
    Lemma bounded_move : forall T q, T <> shape_of s t ->
      has_probability (draws_of_tree b k m) g (becomes s b k m T) q ->
      q = 0%R \/ exists x, In x moves /\ result T x /\ (q <= weight x)%R.
    Proof.
      intros T q NE Q. destruct (probability_01 _ _ _ _ Q) as [[H | H] _]; auto. right.
      destruct (probability_possible _ _ _ _ RR (draws_nodup b k m t Ht) Q H) as (g' & R' & DF & B).
      pose proof (becomes_cases s c0 RG b k m t T g' RE Ht R' B) as [E | GT]; [congruence |].
      destruct B as (t1 & H1 & <-). pose proof (real_rng_laws g' R') as rl.
      set (b' := step (g := g') b k) in *.
      assert (RE' : reached s b') by (apply reached_step; auto).
      destruct (like_exists s b S2 k m t Ht (rg_prob _ _ RG) (rg_first _ _ RG) (rules_ok s c0 RG b m t RE Ht) g (rules_of t)) as [L HL].
      destruct (like_exists s b S2 k m t Ht (rg_prob _ _ RG) (rg_first _ _ RG) (rules_ok s c0 RG b m t RE Ht) g (rules_of t1)) as [L' HL'].
      destruct GT as [GT | GT].
      - destruct (grown_rules d D1 (rules_of t) (rules_of t1) (shape_reached s c0 RG b m t RE Ht) (shape_reached s c0 RG b' m t1 RE' H1) GT)
          as (n & LN & NR & PN & AB & AS).
        pose proof (pair_grow s c0 RG b b' m m t t1 RE RE' Ht H1 n LN NR PN AB AS k g L L' S2 RR HL HL') as Q1.
        destruct (pair_rule s c0 RG b b' m m t t1 RE RE' Ht H1 n LN NR PN AB) as [V C].
        pose proof (pair_growing s c0 RG b' m t t1 RE' H1 n PN AS) as PG.
        exists (inl (n, entry (fst (rules_of t1)) n, entry (snd (rules_of t1)) n)). split; [| split].
        + now apply In_moves_grow.
        + cbn [result]. symmetry. exact (alike_structure d _ _ AB).
        + cbn [weight]. rewrite (probability_unique _ _ _ _ _ RR (draws_nodup b k m t Ht) Q Q1).
          apply min_le. now apply q_grow_nonneg.
      - destruct (grown_rules d D1 (rules_of t1) (rules_of t) (shape_reached s c0 RG b' m t1 RE' H1) (shape_reached s c0 RG b m t RE Ht) GT)
          as (n & LN & NR & PN & AB & AS).
        pose proof (pair_prune s c0 RG b' b m t1 t RE' RE Ht n LN PN AS k g L' L S2 HL' HL) as Q1.
        exists (inr n). split; [| split].
        + apply In_moves_prune; apply PN.
        + cbn [result]. exact (alike_structure d _ _ AS).
        + cbn [weight]. rewrite (probability_unique _ _ _ _ _ RR (draws_nodup b k m t Ht) Q Q1).
          apply min_le. apply q_prune_nonneg.
    Qed.

    Lemma result_unique : forall T T' x, result T x -> result T' x -> T = T'.
    Proof. intros T T' [[[n v] c] | n]; cbn [result]; congruence. Qed.

    Lemma kernel_total : forall outcomes : list (dtree unit * R), NoDup (map fst outcomes) ->
      ~ In (shape_of s t) (map fst outcomes) ->
      (forall o, In o outcomes -> has_probability (draws_of_tree b k m) g (becomes s b k m (fst o)) (snd o)) ->
      (total snd outcomes <= 1)%R.
    Proof.
      intros l ND NI H. eapply Rle_trans; [| exact weights_total].
      apply sum_injection with (f := fun o => result (fst o)); auto.
      - now apply NoDup_map_inv in ND.
      - intros o Ho. apply bounded_move; auto. intros E. apply NI. rewrite <- E. now apply in_map.
      - intros o o' x Ho Ho' R1 R2. pose proof (result_unique _ _ _ R1 R2) as E.
        clear - ND E Ho Ho'. induction l as [| a l IH]; [destruct Ho |]. cbn [map] in ND. inversion ND as [| ? ? N1 N2]; subst.
        destruct Ho as [<- | Ho], Ho' as [<- | Ho']; auto.
        + exfalso. apply N1. rewrite E. now apply in_map.
        + exfalso. apply N1. rewrite <- E. now apply in_map.
      - exact weight_nonneg.
    Qed.
  End State.
End Kernel.
