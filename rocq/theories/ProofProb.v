(** The probability of an event is unique. *)
From Coq Require Import ZArith List Bool Lia Reals Lra.
From Verif Require Import Base LemBase Laws SpecTree SpecMH SpecChance.
Import ListNotations.
Open Scope Z_scope.

Lemma key_dec : forall k k' : key, {k = k'} + {k <> k'}.
Proof. decide equality; apply Z.eq_dec. Defined.

Lemma nth_error_eq : forall A (l l' : list A), (forall n, nth_error l n = nth_error l' n) -> l = l'.
Proof.
  induction l as [| a l IH]; intros [| a' l'] H; auto.
  - specialize (H 0%nat). discriminate.
  - specialize (H 0%nat). discriminate.
  - pose proof (H 0%nat) as H0. injection H0 as ->. f_equal. apply IH. intros n. exact (H (S n)).
Qed.

(** ** Changing one draw *)

Definition set_unif (g : rng rops) (k : key) (i : Z) (x : R) : rng rops := {|
  r_unif := fun k' i' => if key_dec k' k then if Z.eq_dec i' i then x : @F rops else r_unif (rng := g) k' i'
                         else r_unif (rng := g) k' i';
  r_unif_to := r_unif_to (rng := g); r_bits := r_bits (rng := g);
  r_normal := r_normal (rng := g); r_gamma := r_gamma (rng := g) |}.

Definition set_unif_to (g : rng rops) (k : key) (hi x : R) : rng rops := {|
  r_unif := r_unif (rng := g);
  r_unif_to := fun k' hi' => if key_dec k' k then if Req_EM_T hi' hi then x : @F rops else r_unif_to (rng := g) k' hi'
                             else r_unif_to (rng := g) k' hi';
  r_bits := r_bits (rng := g);
  r_normal := r_normal (rng := g); r_gamma := r_gamma (rng := g) |}.

Definition set_bits (g : rng rops) (k : key) (z : Z) : rng rops := {|
  r_unif := r_unif (rng := g); r_unif_to := r_unif_to (rng := g);
  r_bits := fun k' => if key_dec k' k then z else r_bits (rng := g) k';
  r_normal := r_normal (rng := g); r_gamma := r_gamma (rng := g) |}.

Lemma set_unif_ok : forall g k i x, real_rng g -> (0 <= x < 1)%R -> real_rng (set_unif g k i x).
Proof.
  intros g k i x H Hx. constructor; cbn [set_unif r_unif r_unif_to r_gamma]; intros; try apply H; auto.
  destruct (key_dec _ _); [destruct (Z.eq_dec _ _) |]; auto; apply H.
Qed.

Lemma set_unif_to_ok : forall g k hi x, real_rng g -> (0 <= x < hi)%R -> real_rng (set_unif_to g k hi x).
Proof.
  intros g k hi x H Hx. constructor; cbn [set_unif_to r_unif r_unif_to r_gamma]; intros; try apply H; auto.
  - destruct (key_dec _ _); [destruct (Req_EM_T _ _) |]; subst; auto; now apply H.
  - destruct (key_dec _ _); [destruct (Req_EM_T _ _) |]; auto; [lra | apply H | apply H].
Qed.

Lemma set_bits_ok : forall g k z, real_rng g -> real_rng (set_bits g k z).
Proof. intros g k z H. constructor; cbn; intros; now apply H. Qed.

Lemma set_unif_at : forall g k i x, r_unif (rng := set_unif g k i x) k i = x.
Proof. intros. cbn. destruct (key_dec k k); [| congruence]. destruct (Z.eq_dec i i); congruence. Qed.
Lemma set_unif_to_at : forall g k hi x, r_unif_to (rng := set_unif_to g k hi x) k (hi : @F rops) = x.
Proof. intros. cbn. destruct (key_dec k k); [| congruence]. destruct (Req_EM_T hi hi); congruence. Qed.
Lemma set_unif_to_other : forall g k hi hi' x, hi' <> hi ->
  r_unif_to (rng := set_unif_to g k hi x) k (hi' : @F rops) = r_unif_to (rng := g) k (hi' : @F rops).
Proof. intros. cbn. destruct (key_dec k k); [| congruence]. destruct (Req_EM_T hi' hi); congruence. Qed.
Lemma set_bits_at : forall g k z, r_bits (rng := set_bits g k z) k = z.
Proof. intros. cbn. destruct (key_dec k k); congruence. Qed.

Lemma set_unif_differ : forall g k i x, differ_only_at [Unif k i] g (set_unif g k i x).
Proof.
  intros. split; [| split]; auto. intros [k' i' | k' | k'] N; cbn; auto.
  destruct (key_dec k' k) as [-> |]; auto. destruct (Z.eq_dec i' i) as [-> |]; auto. exfalso. apply N. now left.
Qed.
Lemma set_unif_to_differ : forall g k hi x, differ_only_at [UnifTo k] g (set_unif_to g k hi x).
Proof.
  intros. split; [| split]; auto. intros [k' i' | k' | k'] N; cbn; auto. intros hi'.
  destruct (key_dec k' k) as [-> |]; auto. exfalso. apply N. now left.
Qed.
Lemma set_bits_differ : forall g k z, differ_only_at [Int k] g (set_bits g k z).
Proof.
  intros. split; [| split]; auto. intros [k' i' | k' | k'] N; cbn; auto.
  destruct (key_dec k' k) as [-> |]; auto. exfalso. apply N. now left.
Qed.

Lemma differ_refl : forall l g, differ_only_at l g g.
Proof. intros l g. split; [| split]; auto. intros [k i | k | k] _; cbn; auto. Qed.

Lemma same_at_trans : forall s g g' g'', same_at g g' s -> same_at g' g'' s -> same_at g g'' s.
Proof. intros [k i | k | k] g g' g''; cbn; intros; try congruence. Qed.

Lemma differ_trans : forall l l' g g' g'', incl l l' -> differ_only_at l' g g' -> differ_only_at l g' g'' ->
  differ_only_at l' g g''.
Proof.
  intros l l' g g' g'' I (A & B & C) (A' & B' & C'). split; [| split].
  - intros s N. apply (same_at_trans s g g' g''); [apply A, N | apply A']. auto.
  - intros. now rewrite B.
  - intros. now rewrite C.
Qed.

Lemma differ_incl : forall l l' g g', incl l l' -> differ_only_at l g g' -> differ_only_at l' g g'.
Proof. intros l l' g g' I (A & B & C). split; [| split]; auto. Qed.

Lemma holds_same : forall g g' c, same_at g g' (cond_site c) -> (holds g c <-> holds g' c).
Proof.
  intros g g' [k i a b | k hi a b | k n j] H; cbn in *; try (rewrite H; reflexivity).
Qed.

(** ** Conditions that can be met *)

Lemma realise_one : forall c g, real_rng g -> proper c -> (0 < chance c)%R ->
  exists g', real_rng g' /\ differ_only_at [cond_site c] g g' /\ holds g' c.
Proof.
  intros [k i a b | k hi a b | k n j] g H P C; cbn [proper chance cond_site] in *.
  - exists (set_unif g k i a). split; [apply set_unif_ok; auto; lra |]. split; [apply set_unif_differ |].
    cbn [holds]. rewrite set_unif_at. lra.
  - assert (0 < b - a)%R.
    { destruct (Rle_lt_dec (b - a) 0) as [L |]; auto. exfalso. assert (E : (b - a = 0)%R) by lra.
      rewrite E in C. unfold Rdiv in C. rewrite Rmult_0_l in C. lra. }
    exists (set_unif_to g k hi a). split; [apply set_unif_to_ok; auto; lra |]. split; [apply set_unif_to_differ |].
    cbn [holds]. rewrite set_unif_to_at. lra.
  - exists (set_bits g k j). split; [now apply set_bits_ok |]. split; [apply set_bits_differ |].
    cbn [holds]. rewrite set_bits_at. apply Z.mod_small. lia.
Qed.

Lemma realise : forall cs g, real_rng g -> Forall proper cs -> NoDup (map cond_site cs) ->
  Forall (fun c => 0 < chance c)%R cs ->
  exists g', real_rng g' /\ differ_only_at (map cond_site cs) g g' /\ Forall (holds g') cs.
Proof.
  induction cs as [| c cs IH]; intros g H P N C.
  - exists g. split; auto. split; [apply differ_refl | constructor].
  - inversion P; inversion N; inversion C; subst.
    destruct (IH g) as (g1 & R1 & D1 & F1); auto.
    destruct (realise_one c g1) as (g2 & R2 & D2 & F2); auto.
    exists g2. split; auto. split.
    + cbn [map]. apply (differ_trans [cond_site c] _ g g1 g2); [| | exact D2].
      * intros s [<- | []]. now left.
      * eapply differ_incl; [| exact D1]. intros s Hs. now right.
    + constructor; auto. rewrite Forall_forall in F1 |- *. intros c' Hc'.
      apply (holds_same g1 g2).
      * apply D2. intros [E | []]. match goal with Q : ~ In _ (map _ cs) |- _ => apply Q end.
        rewrite E. now apply in_map.
      * auto.
Qed.

Lemma chance_nonneg : forall c, proper c -> (0 <= chance c)%R.
Proof.
  intros [k i a b | k hi a b | k n j] P; cbn [proper chance] in *; [lra | |].
  - apply Rmult_le_pos; [lra |]. left. apply Rinv_0_lt_compat. lra.
  - left. apply Rdiv_lt_0_compat; [lra |]. apply IZR_lt. lia.
Qed.

Lemma product_cases : forall cs, Forall proper cs ->
  Forall (fun c => 0 < chance c)%R cs \/ fold_right Rmult 1%R (map chance cs) = 0%R.
Proof.
  induction 1 as [| c cs P Ps IH]; [left; constructor |]. cbn [map fold_right].
  destruct IH as [IH | ->]; [| right; ring].
  destruct (chance_nonneg c P) as [H | <-]; [left; now constructor | right; ring].
Qed.

Lemma mod_sets : forall n j n' j', 0 <= j < n -> 0 <= j' < n' ->
  (forall z, z mod n = j <-> z mod n' = j') -> n = n'.
Proof.
  assert (H : forall n j n' j', 0 <= j < n -> 0 <= j' < n' ->
    (forall z, z mod n = j -> z mod n' = j') -> (n' | n)).
  { intros n j n' j' Hj Hj' H.
    assert (A : j mod n' = j') by (apply H, Z.mod_small; auto).
    assert (B : (j + n) mod n' = j').
    { apply H. replace (j + n) with (j + 1 * n) by lia. rewrite Z.mod_add by lia. apply Z.mod_small; auto. }
    apply Z.mod_divide; [lia |].
    replace n with ((j + n) - j) by lia. rewrite Zminus_mod, A, B, Z.sub_diag. reflexivity. }
  intros n j n' j' Hj Hj' E. apply Z.divide_antisym_nonneg; try lia.
  - apply (H n' j' n j); auto. intros z. apply E.
  - apply (H n j n' j'); auto. intros z. apply E.
Qed.

Lemma pair_unique : forall c c' g, cond_site c = cond_site c' -> proper c -> proper c' -> real_rng g ->
  holds g c -> holds g c' ->
  (forall g', real_rng g' -> differ_only_at [cond_site c] g g' -> (holds g' c <-> holds g' c')) ->
  chance c = chance c'.
Proof.
  intros [k i a b | k hi a b | k n j] [k' i' a' b' | k' hi' a' b' | k' n' j'] g ES P P' G H H' Q;
    try discriminate; cbn [cond_site] in ES, Q; injection ES as <-; try subst i'; cbn [proper holds chance] in *.
  - assert (U := rr_unif (real_rng := G) k i).
    assert (Q' : forall x, (0 <= x < 1)%R -> ((a <= x < b) <-> (a' <= x < b'))%R).
    { intros x Hx. specialize (Q (set_unif g k i x) (set_unif_ok g k i x G Hx) (set_unif_differ g k i x)).
      rewrite set_unif_at in Q. exact Q. }
    clear Q.
    assert (a = a') by (pose proof (Q' a ltac:(lra)); pose proof (Q' a' ltac:(lra)); lra). subst a'.
    destruct (Rtotal_order b b') as [L | [-> | L]]; auto; exfalso.
    + pose proof (Q' b ltac:(lra)). lra.
    + pose proof (Q' b' ltac:(lra)). lra.
  - assert (Q' : forall h x, (0 <= x < h)%R ->
      let v y := r_unif_to (rng := set_unif_to g k h x) k (y : @F rops) in
      ((a <= v hi < b) <-> (a' <= v hi' < b'))%R).
    { intros h x Hx. exact (Q (set_unif_to g k h x) (set_unif_to_ok g k h x G Hx) (set_unif_to_differ g k h x)). }
    clear Q. cbv zeta in Q'.
    assert (U := rr_unif_to (real_rng := G) k hi ltac:(lra)).
    assert (U' := rr_unif_to (real_rng := G) k hi' ltac:(lra)).
    destruct (Req_EM_T hi hi') as [<- | NE].
    + assert (Q : forall x, (0 <= x < hi)%R -> ((a <= x < b) <-> (a' <= x < b'))%R).
      { intros x Hx. specialize (Q' hi x Hx). rewrite set_unif_to_at in Q'. exact Q'. }
      clear Q'.
      assert (a = a') by (pose proof (Q a ltac:(lra)); pose proof (Q a' ltac:(lra)); lra). subst a'.
      destruct (Rtotal_order b b') as [L | [-> | L]]; auto; exfalso.
      * pose proof (Q b ltac:(lra)). lra.
      * pose proof (Q b' ltac:(lra)). lra.
    + assert (Q1 : forall x, (0 <= x < hi)%R -> (a <= x < b)%R).
      { intros x Hx. specialize (Q' hi x Hx). rewrite set_unif_to_at, set_unif_to_other in Q' by congruence.
        apply Q'. exact H'. }
      assert (Q2 : forall x, (0 <= x < hi')%R -> (a' <= x < b')%R).
      { intros x Hx. specialize (Q' hi' x Hx). rewrite set_unif_to_at, set_unif_to_other in Q' by congruence.
        apply Q'. exact H. }
      assert (a = 0%R) by (pose proof (Q1 0%R ltac:(lra)); lra).
      assert (a' = 0%R) by (pose proof (Q2 0%R ltac:(lra)); lra). subst a a'.
      assert (b = hi).
      { destruct (Rle_lt_or_eq_dec b hi ltac:(lra)) as [L | ->]; auto. exfalso. pose proof (Q1 b ltac:(lra)). lra. }
      assert (b' = hi').
      { destruct (Rle_lt_or_eq_dec b' hi' ltac:(lra)) as [L | ->]; auto. exfalso. pose proof (Q2 b' ltac:(lra)). lra. }
      subst b b'. field. split; lra.
  - f_equal. f_equal. apply (mod_sets n j n' j'); auto. intros z.
    specialize (Q (set_bits g k z) (set_bits_ok g k z G) (set_bits_differ g k z)).
    rewrite set_bits_at in Q. exact Q.
Qed.

Lemma unique_positive : forall cs cs' g, real_rng g -> Forall proper cs -> Forall proper cs' ->
  map cond_site cs = map cond_site cs' -> NoDup (map cond_site cs) ->
  Forall (fun c => 0 < chance c)%R cs ->
  (forall g', real_rng g' -> differ_only_at (map cond_site cs) g g' ->
     (Forall (holds g') cs <-> Forall (holds g') cs')) ->
  map chance cs = map chance cs'.
Proof.
  intros cs cs' g G P P' ES ND C Q.
  destruct (realise cs g G P ND C) as (g1 & G1 & D1 & F1).
  assert (F1' : Forall (holds g1) cs') by now apply Q.
  assert (Q1 : forall g', real_rng g' -> differ_only_at (map cond_site cs) g1 g' ->
     (Forall (holds g') cs <-> Forall (holds g') cs')).
  { intros g' G' D'. apply Q; auto. apply (differ_trans (map cond_site cs) _ g g1 g'); [| exact D1 | exact D']. apply incl_refl. }
  clear Q D1 G g C.
  assert (L : length cs = length cs') by (rewrite <- (map_length cond_site cs), ES; apply map_length).
  apply nth_error_eq. intros n.
  rewrite !nth_error_map.
  destruct (nth_error cs n) as [c |] eqn:E; destruct (nth_error cs' n) as [c' |] eqn:E'; auto.
  2: { exfalso. apply nth_error_None in E'. assert (n < length cs)%nat by (apply nth_error_Some; congruence). lia. }
  2: { exfalso. apply nth_error_None in E. assert (n < length cs')%nat by (apply nth_error_Some; congruence). lia. }
  cbn [option_map]. f_equal.
  pose proof (nth_error_In _ _ E) as I. pose proof (nth_error_In _ _ E') as I'.
  rewrite Forall_forall in P, P', F1, F1'.
  assert (SE : cond_site c = cond_site c').
  { pose proof (map_nth_error cond_site _ _ E) as X. pose proof (map_nth_error cond_site _ _ E') as X'. congruence. }
  apply (pair_unique c c' g1); auto.
  assert (OTH : forall l, NoDup (map cond_site l) -> (forall x, In x l -> holds g1 x) -> forall x, In x l ->
    forall g', differ_only_at [cond_site x] g1 g' -> (holds g' x <-> Forall (holds g') l)).
  { intros l N Hl x Hx g' D'. rewrite Forall_forall. split; [| auto].
    intros Hx' z Hz. 
    assert (DD : {cond_site z = cond_site x} + {cond_site z <> cond_site x}).
    { decide equality; try apply Z.eq_dec; apply key_dec. }
    destruct DD as [EQ | NE].
    - assert (z = x); [| subst; auto]. clear - N EQ Hx Hz. induction l as [| y l IH]; [destruct Hx |].
      cbn [map] in N. inversion N; subst. destruct Hx as [-> | Hx], Hz as [-> | Hz]; auto.
      + exfalso. match goal with A : ~ In _ _ |- _ => apply A end. rewrite <- EQ. now apply in_map.
      + exfalso. match goal with A : ~ In _ _ |- _ => apply A end. rewrite EQ. now apply in_map.
    - apply (holds_same g1 g'); [| auto]. apply D'. intros [X | []]. congruence. }
  intros g' G' D'.
  rewrite (OTH cs ND F1 c I g' D').
  rewrite (OTH cs' ltac:(now rewrite <- ES) F1' c' I' g' ltac:(now rewrite <- SE)).
  apply Q1; auto. eapply differ_incl; [| exact D']. intros x [<- | []]. now apply in_map.
Qed.

Theorem probability_unique : forall l g E q q', real_rng g -> NoDup l ->
  has_probability l g E q -> has_probability l g E q' -> q = q'.
Proof.
  intros l g E q q' G ND (cs & P & S & -> & H) (cs' & P' & S' & -> & H').
  assert (Q : forall g', real_rng g' -> differ_only_at l g g' -> (Forall (holds g') cs <-> Forall (holds g') cs')).
  { intros g' G' D'. rewrite <- H, <- H' by auto. reflexivity. }
  destruct (product_cases cs P) as [C | C].
  - f_equal. apply (unique_positive cs cs' g); try congruence. intros g' G' D'. apply Q; congruence.
  - destruct (product_cases cs' P') as [C' | C']; [| congruence].
    f_equal. symmetry. apply (unique_positive cs' cs g); try congruence.
    intros g' G' D'. symmetry. apply Q; congruence.
Qed.

(** an event of positive probability can happen *)
Theorem probability_possible : forall l g E q, real_rng g -> NoDup l ->
  has_probability l g E q -> (0 < q)%R -> exists g', real_rng g' /\ differ_only_at l g g' /\ E g'.
Proof.
  intros l g E q G ND (cs & P & S & -> & H) Hq.
  destruct (product_cases cs P) as [C | C]; [| lra].
  destruct (realise cs g G P ltac:(congruence) C) as (g' & G' & D' & F').
  rewrite S in D'. exists g'. split; auto. split; auto. now apply H.
Qed.

Lemma probability_range : forall l g E q, has_probability l g E q -> (0 <= q)%R.
Proof.
  intros l g E q (cs & P & _ & -> & _). induction P as [| c cs P Ps IH]; cbn [map fold_right]; [lra |].
  apply Rmult_le_pos; auto. now apply chance_nonneg.
Qed.
