(** A concrete execution in real arithmetic. *)
From Coq Require Import ZArith List Bool Lia Reals Lra.
From Verif Require Import Base LemBase ModelStep SpecTree SpecForest SpecRun Laws SpecExact
  PropForest PropExact Examples.
Import ListNotations.
Open Scope Z_scope.

Definition real_clip : foob rops := {| fmode := mkoob true (0%R : @F rops) |}.

Definition real_gen : rng rops := {|
  r_unif := fun k i => (1 / 2)%R : @F rops;
  r_unif_to := fun k hi => (hi / 2)%R : @F rops;
  r_bits := fun k => 1;
  r_normal := fun k i => (IZR (i mod 5) - 2)%R : @F rops;
  r_gamma := fun k a => a
|}.

Lemma real_gen_ok : real_rng real_gen.
Proof. constructor; cbn; intros; lra. Qed.

Definition real_settings : @settings rops := @mksettings rops
  [[0; 2]; [1; 0]; [2; 1]; [3; 2]; [0; 0]; [2; 2]]
  (map IZR [3; -1; 4; -2; 5; -6] : list (@F rops))
  [3; 2] 8 3
  ([95 / 100; 1 / 2; 1 / 4]%R : list (@F rops))
  (1%R : @F rops) (1%R : @F rops) (Some 1) (Some 2) None true.

Definition real_run (n : nat) : @bart rops :=
  fold_left (fun b i => @step rops zclip real_clip real_gen b (KRoot (Z.of_nat i)))
    (seq 0 n) (@init_of rops real_clip real_settings).

Lemma real_settings_ok : settings_ok real_settings.
Proof.
  constructor; cbn [real_settings i_X i_y i_max_split i_split_bits i_num_trees i_p_nonterminal
    i_count_batch i_resid_batch i_min_points].
  - unfold zlen; simpl; lia.
  - reflexivity.
  - reflexivity.
  - unfold zlen; simpl; lia.
  - lia.
  - intros m [<- | [<- | []]]; simpl; lia.
  - right. exists 1. split; [reflexivity | lia].
  - intros x Hx. right. cbn [flt rops f0 F]. apply Rltb_spec.
    repeat destruct Hx as [<- | Hx]; try lra. destruct Hx.
  - discriminate.
  - intros k H. injection H as <-. lia.
Qed.

Lemma real_reached : forall n, @reached_real zclip real_clip real_settings (real_run n).
Proof.
  intros n. unfold real_run. induction n.
  - apply rreached_init.
  - rewrite seq_S, fold_left_app. cbn [fold_left]. apply rreached_step; auto. apply real_gen_ok.
Qed.

(** the hypotheses of C15 and C16: positive noise variance in every state *)
Example real_positive : forall n, (0 < sigma2 (real_run n))%R.
Proof.
  intros n. eapply C16_positive; [exact real_settings_ok | apply real_reached | |]; cbn; lra.
Qed.
