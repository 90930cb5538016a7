(** The few facts about float arithmetic and about the random generator that
    the structural theorems use. They hold for exact arithmetic, and for IEEE
    arithmetic, including infinities, NaN and signed zeros, if the cumulative
    sums are computed from left to right. They do not hold for IEEE arithmetic
    if the sums are computed in parallel, see PropCumsum.v. *)
From Coq Require Import ZArith List Bool Lia Reals Lra.
From Verif Require Import Base.
Import ListNotations.
Open Scope Z_scope.

Class flaws (fo : fops) : Prop := {
  (** There are as many cumulative sums as numbers. *)
  fl_cs_length : forall l, length (fcumsum l) = length l;
  (** Those of zeros are zeros. *)
  fl_cs_zeros : forall l x, (forall y, In y l -> y = f0) -> In x (fcumsum l) -> x = f0;
  (** They do not change where there is a zero. *)
  fl_cs_first : forall l u, flt u (nth 0 (fcumsum (f0 :: l)) f0) = flt u f0;
  fl_cs_flat : forall l i u, (S i < length l)%nat -> nth (S i) l f0 = f0 ->
    flt u (nth (S i) (fcumsum l) f0) = flt u (nth i (fcumsum l) f0);
  (** The total of non-negative numbers, one of which positive, is positive. *)
  fl_cs_pos : forall l, (forall x, In x l -> fle f0 x = true) -> (exists x, In x l /\ flt f0 x = true) ->
    flt f0 (last (fcumsum l) f0) = true;
  fl_pos_nonneg : forall a, flt f0 a = true -> fle f0 a = true;
  fl_0_nonneg : fle f0 f0 = true
}.

(** ** Cumulative sums from left to right *)
Class add_laws (fo : fops) : Prop := {
  al_add_0 : forall u x, flt u (fadd x f0) = flt u x;
  al_add_00 : fadd f0 f0 = f0;
  al_add_pos_l : forall a b, flt f0 a = true -> fle f0 b = true -> flt f0 (fadd a b) = true;
  al_add_pos_r : forall a b, fle f0 a = true -> flt f0 b = true -> flt f0 (fadd a b) = true;
  al_add_nonneg : forall a b, fle f0 a = true -> fle f0 b = true -> fle f0 (fadd a b) = true;
  al_pos_nonneg : forall a, flt f0 a = true -> fle f0 a = true;
  al_0_nonneg : fle f0 f0 = true
}.

Lemma length_cumsum {A} (add : A -> A -> A) l : forall acc, length (cumsum_from add acc l) = length l.
Proof. induction l; intros acc; cbn; auto. Qed.
Lemma nth_cumsum_S {A} (add : A -> A -> A) (d : A) l : forall acc i, (S i < length l)%nat ->
  nth (S i) (cumsum_from add acc l) d = add (nth i (cumsum_from add acc l) d) (nth (S i) l d).
Proof.
  induction l as [| x l IH]; intros acc i H; cbn [length] in H; [lia |].
  cbn [cumsum_from nth]. destruct i as [| i].
  - destruct l as [| y l]; [cbn in H; lia | reflexivity].
  - rewrite (IH (add acc x) i) by lia. reflexivity.
Qed.

Lemma sequential_laws (fo : fops) : add_laws fo ->
  (forall l, fcumsum l = cumsum_from fadd f0 l) -> flaws fo.
Proof.
  intros L E. constructor.
  - intros l. rewrite E. apply length_cumsum.
  - intros l x H. rewrite E.
    assert (G : forall l acc, acc = f0 -> (forall y, In y l -> y = f0) -> In x (cumsum_from fadd acc l) -> x = f0).
    { clear -L. induction l as [| y l IH]; intros acc -> H I; [destruct I |]. cbn in I.
      rewrite (H y), al_add_00 in I by now left. destruct I as [<- | I]; [reflexivity |].
      apply (IH f0 eq_refl); [| exact I]. intros z Hz. apply H. now right. }
    now apply G.
  - intros l u. rewrite E. cbn. apply al_add_0.
  - intros l i u H Z. rewrite E, nth_cumsum_S, Z by exact H. apply al_add_0.
  - intros l H (x & Hx & P). rewrite E.
    assert (G : forall l acc, l <> [] -> fle f0 acc = true -> (forall x, In x l -> fle f0 x = true) ->
      flt f0 acc = true \/ (exists x, In x l /\ flt f0 x = true) -> flt f0 (last (cumsum_from fadd acc l) f0) = true).
    { clear -L. induction l as [| y l IH]; intros acc N Ha H D; [congruence |].
      assert (Hy : fle f0 y = true) by (apply H; now left). cbn [cumsum_from].
      destruct l as [| z l].
      - cbn. destruct D as [D | (x & [<- | []] & D)]; [now apply al_add_pos_l | now apply al_add_pos_r].
      - change (last (fadd acc y :: cumsum_from fadd (fadd acc y) (z :: l)) f0)
          with (last (cumsum_from fadd (fadd acc y) (z :: l)) f0).
        apply IH; [discriminate | now apply al_add_nonneg | intros x Hx; apply H; now right |].
        destruct D as [D | (x & [<- | Hx] & D)].
        + left. now apply al_add_pos_l.
        + left. now apply al_add_pos_r.
        + right. eauto. }
    apply G; [intros -> ; destruct Hx | apply al_0_nonneg | exact H | right; eauto].
  - apply al_pos_nonneg.
  - apply al_0_nonneg.
Qed.

(** [random.uniform] is in [0, 1); [random.uniform(0, hi)] is in [0, hi) if
    hi > 0, and is not negative. *)
Class rlaws {fo : fops} (g : rng fo) : Prop := {
  rl_unif_ge : forall k i, flt (r_unif k i) f0 = false;
  rl_unif_lt : forall k i, flt (r_unif k i) f1 = true;
  rl_unif_to_ge : forall k hi, fle f0 hi = true -> flt (r_unif_to k hi) f0 = false;
  rl_unif_to_lt : forall k hi, flt f0 hi = true -> flt (r_unif_to k hi) hi = true
}.

(** Exact real arithmetic *)
Definition Rltb (a b : R) : bool := if Rlt_dec a b then true else false.
Definition Rleb (a b : R) : bool := if Rle_dec a b then true else false.

Definition rops : fops := {|
  F := R;
  f0 := 0%R; f1 := 1%R; fhalf := (/ 2)%R; fnan := 0%R;
  fofZ := IZR;
  fadd := Rplus; fsub := Rminus; fmul := Rmult; fdiv := Rdiv;
  fneg := Ropp; flog := ln; flog1p := fun x => ln (1 + x); fsqrt := sqrt;
  flt := Rltb; fle := Rleb; fcumsum := cumsum_from Rplus 0%R;
  fisfinite := fun _ => true
|}.

Lemma Rltb_spec : forall a b, Rltb a b = true <-> (a < b)%R.
Proof. intros; unfold Rltb; destruct (Rlt_dec a b); split; auto; congruence. Qed.

Lemma Rleb_spec : forall a b, Rleb a b = true <-> (a <= b)%R.
Proof. intros; unfold Rleb; destruct (Rle_dec a b); split; auto; congruence. Qed.

Lemma Rltb_false : forall a b, Rltb a b = false <-> (b <= a)%R.
Proof. intros; unfold Rltb; destruct (Rlt_dec a b); split; intros; auto; try congruence; lra. Qed.

#[global] Instance rops_laws : flaws rops.
Proof.
  apply sequential_laws; [| reflexivity].
  constructor; simpl; intros; rewrite ?Rplus_0_r; auto; rewrite ?Rltb_spec, ?Rleb_spec in *; try lra.
Qed.

(** A generator of real numbers as documented: uniform(0, hi) is 0 if hi = 0. *)
Class real_rng (g : rng rops) : Prop := {
  rr_unif : forall k i, (0 <= r_unif (rng := g) k i < 1)%R;
  rr_unif_to : forall k hi, (0 < hi)%R -> (0 <= r_unif_to (rng := g) k hi < hi)%R;
  rr_unif_to_0 : forall k, r_unif_to (rng := g) k (0%R : @F rops) = 0%R;
  rr_gamma : forall k a, (0 < a)%R -> (0 < r_gamma (rng := g) k a)%R
}.

#[global] Instance real_rng_laws : forall g, real_rng g -> rlaws g.
Proof.
  intros g H. constructor; cbn [rops F flt fle f0 f1]; intros.
  - apply Rltb_false. apply rr_unif.
  - apply Rltb_spec. apply rr_unif.
  - apply Rltb_false. apply Rleb_spec in H0.
    destruct (Req_dec hi 0) as [-> | N].
    + change (r_unif_to k (0%R : @F rops)) with (r_unif_to (rng := g) k (0%R : @F rops)).
      rewrite rr_unif_to_0. lra.
    + apply rr_unif_to. lra.
  - apply Rltb_spec. apply Rltb_spec in H0. apply rr_unif_to. lra.
Qed.
