(** Properties C18-C20: the elementary samplers of mcmcstep.py. *)
From Coq Require Import ZArith QArith List Bool Lia Reals Lra.
From Verif Require Import Base LemBase ModelStep SpecSampling Laws ProofSampling
  ProofCategorical Examples.
Import ListNotations.
Open Scope Z_scope.

(** C18. Exact arithmetic: index i is returned exactly when the uniform draw u
    in [0, total) lies in the i-th of the consecutive intervals of lengths
    distr[0], distr[1], ...; the second output is the total. *)
Theorem C18_categorical_interval :
  forall {foo : foob rops} {g : rng rops} {rl : real_rng g} k (distr : list R),
  (forall x, In x distr -> 0 <= x)%R -> (0 < Rsum distr)%R ->
  let u := r_unif_to (rng := g) k (Rsum distr : @F rops) in
  forall i, fst (categorical (fo := rops) k distr) = i <->
    0 <= i < zlen distr /\
    (weight_before distr i <= u < weight_before distr i + zget 0 distr i)%R.
Proof. exact @categorical_interval. Qed.
Print Assumptions C18_categorical_interval.

Theorem C18_categorical_total :
  forall {foo : foob rops} {g : rng rops} k (distr : list R),
  distr <> [] -> snd (categorical (fo := rops) k distr) = Rsum distr.
Proof.
  intros foo g k distr H. rewrite (categorical_total k distr H), fold_left_Rplus. apply Rplus_0_l.
Qed.
Print Assumptions C18_categorical_total.

(** C18. Zero weights are never returned; any float arithmetic with the stated
    laws, among which that the cumulative sums do not change at zeros; see
    PropCumsum.v for what happens otherwise. *)
Theorem C18_categorical_nonzero_weight :
  forall {fo : fops} {foo : foob fo} {g : rng fo} {fl : flaws fo} {rl : rlaws g} k distr,
  (forall x, In x distr -> fle f0 x = true) ->
  (exists x, In x distr /\ flt f0 x = true) ->
  0 <= fst (categorical k distr) < zlen distr /\
  zget f0 distr (fst (categorical k distr)) <> f0.
Proof. exact @categorical_valid. Qed.
Print Assumptions C18_categorical_nonzero_weight.

(** C18. All weights zero *)
Theorem C18_categorical_all_zero :
  forall {foo : foob rops} {g : rng rops} {rl : real_rng g} k (distr : list R),
  distr <> [] -> (forall x, In x distr -> x = 0)%R ->
  fst (categorical (fo := rops) k distr) = zlen distr.
Proof. exact @categorical_zero. Qed.
Print Assumptions C18_categorical_all_zero.

(** A generator of reals: every uniform draw is the midpoint of its range. *)
Definition rmid : rng rops := {|
  r_unif := fun _ _ => (1 / 2)%R : @F rops;
  r_unif_to := fun _ hi => (hi / 2)%R : @F rops;
  r_bits := fun _ => 3;
  r_normal := fun _ _ => 0%R : @F rops;
  r_gamma := fun _ a => a
|}.
Lemma rmid_real : real_rng rmid.
Proof. constructor; simpl; intros; lra. Qed.

Example C18_example : forall foo : foob rops,
  fst (@categorical rops foo rmid (KRoot 0) [1; 0; 3]%R) = 2.
Proof.
  intros. apply (@categorical_interval foo rmid rmid_real).
  - simpl; intros x H; repeat destruct H as [<- | H]; try lra; tauto.
  - simpl; lra.
  - split; [vm_compute; split; congruence |].
    unfold weight_before, zget. simpl. unfold Z.to_nat; simpl. lra.
Qed.

(** C19. The draws u = 0, ..., count-1 (one of them, [r_bits mod count], is
    drawn by jax) correspond one-to-one to the True entries: entry i is
    returned iff it is True and has exactly u True entries before it. *)
Theorem C19_randint_masked :
  forall {fo : fops} {zo : zoob} {g : rng fo} k mask,
  0 < count_nonzero mask ->
  exists u, 0 <= u < count_nonzero mask /\
    u = r_bits k mod count_nonzero mask /\
    forall i, randint_masked k mask = i <-> is_true_at mask i /\ trues_before mask i = u.
Proof. exact @randint_masked_spec. Qed.
Print Assumptions C19_randint_masked.

Theorem C19_randint_masked_none :
  forall {fo : fops} {zo : zoob} {g : rng fo} k mask,
  mask <> [] -> count_nonzero mask = 0 -> randint_masked k mask = zlen mask.
Proof. exact @randint_masked_none. Qed.
Print Assumptions C19_randint_masked_none.

(** C20. With at least one value allowed, the draws u = 0, ..., count-1
    correspond one-to-one to the allowed values: a is returned iff it is
    allowed and exactly u allowed values are smaller. *)
Theorem C20_randint_exclude :
  forall {fo : fops} {g : rng fo} k sup exclude,
  0 <= sup -> (forall e, In e exclude -> 0 <= e) ->
  let count := allowed_before exclude sup in
  0 < count ->
  exists u, 0 <= u < count /\ u = r_bits k mod count /\
    forall a, randint_exclude k sup exclude = a <->
              allowed sup exclude a /\ allowed_before exclude a = u.
Proof. exact @randint_exclude_spec. Qed.
Print Assumptions C20_randint_exclude.

(** C20. With everything excluded the result is out of range, but bounded. *)
Theorem C20_randint_exclude_all :
  forall {fo : fops} {g : rng fo} k sup exclude,
  0 <= sup -> (forall e, In e exclude -> 0 <= e) ->
  (forall a, 0 <= a < sup -> In a exclude) ->
  sup <= randint_exclude k sup exclude <= zlen exclude.
Proof.
  intros fo g k sup exclude Hs Hp H. apply randint_exclude_full; auto.
  now apply allowed_before_zero.
Qed.
Print Assumptions C20_randint_exclude_all.

(** C20. The documented "return [sup]" is false: it returns 2 for sup = 1 and
    exclude = [0, 0], whatever the draw. *)
Theorem C20_randint_exclude_sup_refuted :
  forall {fo : fops} {g : rng fo} k,
  exists sup exclude,
    (forall a, 0 <= a < sup -> In a exclude) /\
    randint_exclude k sup exclude <> sup.
Proof.
  intros fo g k. exists 1, [0; 0]. split.
  - intros a Ha. simpl. lia.
  - vm_compute. discriminate.
Qed.
Print Assumptions C20_randint_exclude_sup_refuted.

(** the same generator on rationals *)
Definition qgen : rng qops := {|
  r_unif := fun _ _ => (1 # 4)%Q : @F qops;
  r_unif_to := fun _ hi => Qred (hi * (1 # 2))%Q : @F qops;
  r_bits := fun _ => 3;
  r_normal := fun _ i => inject_Z i : @F qops;
  r_gamma := fun _ a => a
|}.
Example C19_C20_example :
  let mask := [false; true; true; false; true] in
  0 < count_nonzero mask /\
  @randint_masked qops zclip qgen (KRoot 0) mask = 1 /\
  0 < allowed_before [2; 0; 2; 7] 5 /\
  @randint_exclude qops qgen (KRoot 0) 5 [2; 0; 2; 7] = 1 /\
  @randint_exclude qops qgen (KRoot 0) 6 [2; 0; 2; 7] = 5.
Proof. repeat split. Qed.
