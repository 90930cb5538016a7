(** A concrete execution of the sampler, in fixed-point arithmetic (numbers are
    multiples of 2^-16, products and quotients are rounded down), used to show
    that the hypotheses of the theorems about executions are met.  log is
    replaced by x - 1 and sqrt by the identity, which matters to no example. *)
From Coq Require Import ZArith List Bool Lia.
From Verif Require Import Base LemBase ModelStep SpecTree SpecRun Laws Examples.
Import ListNotations.
Open Scope Z_scope.

Definition xone : Z := 65536.
Definition xops : fops := {|
  F := Z;
  f0 := 0; f1 := xone; fhalf := xone / 2; fnan := 0;
  fofZ := fun z => z * xone;
  fadd := Z.add; fsub := Z.sub;
  fmul := fun a b => a * b / xone; fdiv := fun a b => a * xone / b;
  fneg := Z.opp; flog := fun x => x - xone; flog1p := fun x => x; fsqrt := fun x => x;
  flt := Z.ltb; fle := Z.leb; fcumsum := cumsum_from Z.add 0;
  fisfinite := fun _ => true
|}.

#[global] Instance xops_laws : flaws xops.
Proof.
  apply sequential_laws; [| reflexivity].
  constructor; cbn [xops F flt fle fadd f0]; intros; rewrite ?Z.add_0_r; auto;
    rewrite ?Z.ltb_lt, ?Z.leb_le in *; lia.
Qed.

(** A generator that depends on the key: a number made from the path of the
    key is used for all draws. *)
Fixpoint key_num (k : key) : Z :=
  match k with
  | KRoot s => 17 * s + 5
  | KSplit k n i => (key_num k * 31 + i * 7 + n) mod 101
  end.
Definition xrng : rng xops := {|
  r_unif := fun k i => ((key_num k + 37 * i) mod 101 * xone / 101) : @F xops;
  r_unif_to := fun k hi => ((key_num k mod 101) * hi / 101) : @F xops;
  r_bits := fun k => key_num k;
  r_normal := fun k i => ((key_num k + 53 * i) mod 41 - 20) * xone / 10 : @F xops;
  r_gamma := fun k a => a
|}.

#[global] Instance xrng_laws : rlaws xrng.
Proof.
  constructor; cbn [xops xrng F flt fle f0 f1 r_unif r_unif_to]; intros;
    rewrite ?Z.ltb_lt, ?Z.ltb_ge, ?Z.leb_le in *.
  - pose proof (Z.mod_pos_bound (key_num k + 37 * i) 101). unfold xone. apply Z.div_pos; lia.
  - pose proof (Z.mod_pos_bound (key_num k + 37 * i) 101). unfold xone. apply Z.div_lt_upper_bound; lia.
  - pose proof (Z.mod_pos_bound (key_num k) 101). apply Z.div_pos; nia.
  - pose proof (Z.mod_pos_bound (key_num k) 101). apply Z.div_lt_upper_bound; nia.
Qed.

Definition xclip : foob xops := {| fmode := mkoob true (0 : @F xops) |}.

Definition ex_settings : @settings xops := {|
  i_X := [[0; 2]; [1; 0]; [2; 1]; [3; 2]; [0; 0]; [2; 2]];
  i_y := map (fun n => n * xone : @F xops) [3; -1; 4; -2; 5; -6];
  i_max_split := [3; 2];
  i_split_bits := 8;
  i_num_trees := 3;
  i_p_nonterminal := [xone * 19 / 20; xone / 2; xone / 4] : list (@F xops);
  i_sigma2_alpha := (xone : @F xops);
  i_sigma2_beta := (xone : @F xops);
  i_min_points := Some 1;
  i_resid_batch := Some 2;
  i_count_batch := None;
  i_save_ratios := true
|}.

Definition ex_run (n : nat) : @bart xops :=
  fold_left (fun b i => @step xops zclip xclip xrng b (KRoot (Z.of_nat i)))
    (seq 0 n) (@init_of xops xclip ex_settings).

Lemma ex_settings_ok : settings_ok ex_settings.
Proof.
  constructor; cbn [ex_settings i_X i_y i_max_split i_split_bits i_num_trees i_p_nonterminal
    i_count_batch i_resid_batch i_min_points].
  - unfold zlen; simpl; lia.
  - reflexivity.
  - reflexivity.
  - unfold zlen; simpl; lia.
  - lia.
  - intros m [<- | [<- | []]]; simpl; lia.
  - right. exists 1. split; [reflexivity | lia].
  - intros x Hx. right. repeat destruct Hx as [<- | Hx]; try reflexivity. destruct Hx.
  - discriminate.
  - intros k H. injection H as <-. lia.
Qed.

Lemma ex_reached : forall n, @reached xops zclip xclip ex_settings (ex_run n).
Proof.
  intros n. unfold ex_run. induction n.
  - apply reached_init.
  - rewrite seq_S, fold_left_app. cbn [fold_left]. apply reached_step; auto. apply xrng_laws.
Qed.
