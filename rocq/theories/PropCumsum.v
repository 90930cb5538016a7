(** Cumulative sums computed in parallel, as jax does on CPU (C18, C06). The sums
    of the same numbers are then grouped in different ways, so with rounding two
    consecutive sums may differ although the number between them is zero. *)
From Coq Require Import ZArith List Bool Lia Reals Lra.
From Flocq Require Import BinarySingleNaN.
From Verif Require Import Base LemBase ModelGrove ModelStep SpecTree SpecForest SpecRun Laws Laws32
  ProofSampling ProofCategorical Examples ExampleRun.
Import ListNotations.
Open Scope Z_scope.

(** ** The algorithm *)

(** [x[0::2]], [x[1::2]], and their inverse *)
Fixpoint evens {A} (l : list A) : list A :=
  match l with
  | x :: _ :: l => x :: evens l
  | l => l
  end.
Fixpoint odds {A} (l : list A) : list A :=
  match l with
  | _ :: y :: l => y :: odds l
  | _ => []
  end.
Fixpoint interleave {A} (a b : list A) : list A :=
  match a, b with
  | x :: a, y :: b => x :: y :: interleave a b
  | a, [] => a
  | [], b => b
  end.

(** [jax.lax.associative_scan(add, l)], used by [jnp.cumsum] on CPU: the adjacent
    elements are combined, the scan of the results gives the elements with odd
    index, from which the ones with even index are computed. Not part of
    /repo. *)
Fixpoint scan_fuel {A} (fuel : nat) (add : A -> A -> A) (l : list A) : list A :=
  match fuel, l with
  | S fuel, x :: _ :: _ =>
    let odd := scan_fuel fuel add (map2 add (evens l) (odds l)) in
    let even := x :: map2 add odd (tl (evens l)) in
    interleave even odd
  | _, _ => l
  end.
Definition parallel_cumsum {A} (add : A -> A -> A) (l : list A) : list A :=
  scan_fuel (length l) add l.

(** ** Without rounding it makes no difference. *)
Section Exact.
  Context {A : Type} (add : A -> A -> A) (assoc : forall a b c, add a (add b c) = add (add a b) c).

  (** the sums of [x :: l], preceded by the numbers with sum [acc] *)
  Lemma scan_pairs : forall n l acc, (length l <= n)%nat ->
    let odd := cumsum_from add acc (map2 add (evens l) (odds l)) in
    interleave (map2 add (acc :: odd) (evens l)) odd = cumsum_from add acc l.
  Proof.
    induction n as [| n IH]; intros l acc H; (destruct l as [| x l]; [reflexivity |]); [cbn in H; lia |].
    destruct l as [| y l]; [reflexivity |]. cbn [evens odds map2 cumsum_from interleave].
    rewrite assoc. do 2 f_equal. apply IH. cbn in H. lia.
  Qed.

  Lemma length_evens_odds : forall n (l : list A), (length l <= n)%nat ->
    (length (map2 add (evens l) (odds l)) <= Nat.div2 n)%nat.
  Proof.
    induction n as [n IH] using lt_wf_ind; intros l H.
    destruct l as [| x [| y l]]; [cbn; lia | cbn; lia |]. cbn [length] in H.
    destruct n as [| [| n]]; [lia | lia |]. cbn [evens odds map2 length Nat.div2].
    specialize (IH n ltac:(lia) l ltac:(lia)). lia.
  Qed.

  Lemma scan_exact : forall fuel l x, (length l < fuel)%nat ->
    scan_fuel fuel add (x :: l) = x :: cumsum_from add x l.
  Proof.
    induction fuel as [| fuel IH]; intros l x H; [lia |].
    destruct l as [| y l]; [reflexivity |]. cbn [scan_fuel evens odds map2 tl].
    rewrite IH.
    - cbn [interleave cumsum_from]. do 2 f_equal. apply (scan_pairs (length l)). lia.
    - pose proof (length_evens_odds (length l) l ltac:(lia)). cbn [length] in H.
      pose proof (Nat.div2_decr (length l) (length l) ltac:(lia)). lia.
  Qed.
End Exact.

(** C18. In exact arithmetic the cumulative sums are those of the model. *)
Theorem C18_parallel_exact : forall l : list R, parallel_cumsum Rplus l = fcumsum (fops := rops) l.
Proof.
  intros [| x l]; [reflexivity |]. unfold parallel_cumsum.
  rewrite (scan_exact Rplus (fun a b c => eq_sym (Rplus_assoc a b c))) by (cbn; lia).
  cbn [rops fcumsum cumsum_from F]. now rewrite Rplus_0_l.
Qed.
Print Assumptions C18_parallel_exact.

(** ** With single precision it does. *)

(** Single precision arithmetic, cumulative sums in parallel *)
Definition ops32p (log log1p : b32 -> b32) : fops := {|
  F := b32;
  f0 := b32_0; f1 := b32_of 1 0; fhalf := b32_of 1 (-1); fnan := B754_nan;
  fofZ := fun z => b32_of z 0;
  fadd := b32_add; fsub := Bminus mode_NE; fmul := Bmult mode_NE; fdiv := Bdiv mode_NE;
  fneg := Bopp; flog := log; flog1p := log1p; fsqrt := Bsqrt mode_NE;
  flt := Bltb; fle := Bleb; fcumsum := parallel_cumsum b32_add;
  fisfinite := is_finite
|}.

(** The same random numbers as [gen32] *)
Definition gen32p (log log1p : b32 -> b32) (bits : key -> Z -> Z) : rng (ops32p log log1p) :=
  let g := gen32 log log1p bits (fun _ _ => b32_0) (fun _ _ => b32_of 1 0) in {|
  r_unif := (fun k i => @r_unif _ g k i : @F (ops32p log log1p));
  r_unif_to := (fun k (hi : @F (ops32p log log1p)) => @r_unif_to _ g k hi : @F (ops32p log log1p));
  r_bits := @r_bits _ g;
  r_normal := (fun k i => @r_normal _ g k i : @F (ops32p log log1p));
  r_gamma := (fun k (a : @F (ops32p log log1p)) => @r_gamma _ g k a : @F (ops32p log log1p))
|}.

#[local] Instance gen32p_laws log log1p bits : rlaws (gen32p log log1p bits).
Proof.
  pose proof (gen32_laws log log1p bits (fun _ _ => b32_0) (fun _ _ => b32_of 1 0)) as L.
  constructor.
  - exact (@rl_unif_ge _ _ L).
  - exact (@rl_unif_lt _ _ L).
  - exact (@rl_unif_to_ge _ _ L).
  - exact (@rl_unif_to_lt _ _ L).
Qed.

(** The logarithm, up to 0.06 (the logarithm in base 2 is interpolated between
    the powers of 2). *)
Definition ln2 : b32 := b32_of 11629080 (-24).
Definition near_log (x : b32) : b32 :=
  match x with
  | B754_zero _ => B754_infinity true
  | B754_infinity false => B754_infinity false
  | B754_finite false m e _ =>
    let k := Z.log2 (Zpos m) in
    Bmult mode_NE ln2 (b32_add (b32_of (e + k) 0) (Bminus mode_NE (b32_of (Zpos m) (- k)) (b32_of 1 0)))
  | _ => B754_nan
  end.
Definition near_log1p (x : b32) : b32 := near_log (b32_add (b32_of 1 0) x).
Definition opsp : fops := ops32p near_log near_log1p.
#[local] Instance foop : foob opsp := {| fmode := mkoob true (b32_0 : @F opsp) |}.

(** The default prior of gbart: 0.95 / (1 + depth)^2, maximum depth 6 *)
Definition base95 : b32 := b32_of 15938355 (-24).
Definition default_prior : list b32 :=
  map (fun d => Bdiv mode_NE base95 (b32_of ((1 + d) * (1 + d)) 0)) (arange 5).

(** The settings of gbart for 80 points with a predictor with values 0, ..., 79 *)
Definition pset : @settings opsp := {|
  i_X := map (fun x => [x]) (arange 80);
  i_y := repeat (b32_0 : @F opsp) 80;
  i_max_split := [79]; i_split_bits := 8; i_num_trees := 1;
  i_p_nonterminal := default_prior : list (@F opsp);
  i_sigma2_alpha := b32_of 1 0 : @F opsp; i_sigma2_beta := b32_of 1 0 : @F opsp;
  i_min_points := Some 5; i_resid_batch := None; i_count_batch := None; i_save_ratios := false
|}.

Lemma pset_ok : settings_ok pset.
Proof.
  constructor; cbn [pset i_X i_y i_max_split i_split_bits i_num_trees i_p_nonterminal i_count_batch i_resid_batch i_min_points].
  - change (1 <= zlen default_prior <= 63). replace (zlen default_prior) with 5; [lia |]. unfold zlen, default_prior. now rewrite map_length.
  - reflexivity.
  - reflexivity.
  - unfold zlen; simpl; lia.
  - lia.
  - intros m [<- | []]. lia.
  - left. intros m [<- | []]. reflexivity.
  - intros x Hx. right.
    assert (E : forallb (Bltb b32_0) default_prior = true) by (vm_compute; reflexivity).
    rewrite forallb_forall in E. exact (E x Hx).
  - discriminate.
  - discriminate.
Qed.

(** The random bits of a step: grow, with the given bits for the choice of the
    leaf and of the cutpoint; the smallest number for the acceptance *)
Definition step_bits (leaf split : Z) (k : key) (i : Z) : Z :=
  match k with
  | KSplit _ 3 0 => leaf
  | KSplit _ 3 2 => split
  | _ => if i =? 0 then 0 else 2 ^ 23 - 1
  end.
Definition pstep (b : @bart opsp) (ls : Z * Z) : @bart opsp :=
  step (zo := zclip) (foo := foop) (g := gen32p near_log near_log1p (step_bits (fst ls) (snd ls))) b (KRoot 0).
Definition prun (l : list (Z * Z)) : @bart opsp := fold_left pstep l (init_of (foo := foop) pset).

Lemma prun_reached : forall l, reached (zo := zclip) (foo := foop) pset (prun l).
Proof.
  intros l. unfold prun. rewrite <- (rev_involutive l). induction (rev l) as [| x l' IH]; [apply reached_init |].
  cbn [rev]. rewrite fold_left_app. cbn [fold_left]. 
  exact (reached_step pset _ (gen32p near_log near_log1p (step_bits (fst x) (snd x))) (KRoot 0) (gen32p_laws _ _ _) IH).
Qed.

(** The weights with which a leaf is chosen: the leaves are those of a tree with
    decision nodes 1, 2, 3, 4, 5, 7, 15. *)
Definition pweights : list (@F opsp) :=
  map (fun i => if existsb (Z.eqb i) [6; 8; 9; 10; 11; 14; 30; 31]
                then nth (Z.to_nat (Z.log2 i)) default_prior b32_0 else b32_0) (arange 32).

(** C18. In single precision, with cumulative sums in parallel, an entry with
    zero weight may be returned. The weights are those of a tree with the
    default prior, the random number is one that jax can make. *)
Theorem C18_float32_parallel_refuted : exists bits,
  let g := gen32p near_log near_log1p (fun _ _ => bits) in
  let i := fst (categorical (fo := opsp) (foo := foop) (g := g) (KRoot 0) pweights) in
  (forall x, In x pweights -> fle (fops := opsp) f0 x = true) /\
  (exists x, In x pweights /\ flt (fops := opsp) f0 x = true) /\
  0 <= i < zlen pweights /\ zget (f0 (fops := opsp)) pweights i = f0 (fops := opsp).
Proof.
  exists 7056054. cbv zeta.
  set (i := fst _). assert (Ei : i = 15) by (vm_compute; reflexivity). rewrite Ei. clear i Ei.
  split; [| split; [| split]].
  - assert (E : forallb (Bleb b32_0) pweights = true) by (vm_compute; reflexivity).
    rewrite forallb_forall in E. exact E.
  - assert (E : existsb (Bltb b32_0) pweights = true) by (vm_compute; reflexivity).
    apply existsb_exists in E. exact E.
  - assert (E : (length pweights = 32)%nat) by (unfold pweights; now rewrite map_length). unfold zlen. rewrite E. lia.
  - apply B2SF_inj. vm_compute. reflexivity.
Qed.
Print Assumptions C18_float32_parallel_refuted.

(** Seven moves that make the tree above, with rules that put ten points in each
    leaf, and one that chooses node 15 to be grown *)
Definition pmoves : list (Z * Z) :=
  [(4194304, 39); (2097152, 19); (2220513, 9); (1048576, 9); (1016800, 9); (2960685, 9); (7849340, 9);
   (7056054, 15)].
Definition ptree : @tree opsp := nth 0 (trees (prun pmoves)) (mktree [] [] [] [] None).

(** The tree before and after the last move: the rule of node 15 has been
    changed, but the points have not been moved. *)
Lemma ptree_facts :
  t_split (nth 0 (trees (prun (firstn 7 pmoves))) (mktree [] [] [] [] None)) =
    [0; 40; 20; 50; 10; 30; 0; 60; 0; 0; 0; 0; 0; 0; 0; 70] ++ repeat 0 16 /\
  t_split ptree = [0; 40; 20; 50; 10; 30; 0; 60; 0; 0; 0; 0; 0; 0; 0; 76] ++ repeat 0 16 /\
  nth 75 (t_idx ptree) 0 = 31 /\
  nth 75 (map (fun x => leaf_of (Z.to_nat (depth_of pset) - 1) x (t_var ptree) (t_split ptree) 1)
            (points_of (zo := zclip) pset)) 0 = 30.
Proof. split; [| split; [| split]]; vm_compute; reflexivity. Qed.

(** C06. In single precision, with cumulative sums in parallel, the recorded
    leaf of a data point may be another than the one the point is in (the
    settings are the default ones; the probability of such a step is small,
    about 2^-23 for the tree of this example). *)
Theorem C06_float32_parallel_refuted : exists (s : @settings opsp) b t,
  settings_ok s /\ reached (zo := zclip) (foo := foop) s b /\ In t (trees b) /\
  t_idx t <> map (fun x => leaf_of (Z.to_nat (depth_of s) - 1) x (t_var t) (t_split t) 1)
               (points_of (zo := zclip) s).
Proof.
  exists pset, (prun pmoves), ptree.
  split; [exact pset_ok |]. split; [apply prun_reached |].
  destruct ptree_facts as (_ & _ & H1 & H2). split.
  - apply nth_In. assert (E : length (trees (prun pmoves)) = 1%nat) by (vm_compute; reflexivity). rewrite E. lia.
  - intros E. apply (f_equal (fun l => nth 75 l 0)) in E. rewrite H1, H2 in E. discriminate.
Qed.
Print Assumptions C06_float32_parallel_refuted.
