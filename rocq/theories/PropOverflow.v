(** The largest value of the type of the cutpoints as a cutpoint: consequences
    for whole executions. *)
From Coq Require Import ZArith List Bool Lia.
From Verif Require Import Base LemBase ModelStep ProofTree ProofRoute SpecTree SpecForest SpecRange SpecRun Laws Examples ExampleRun
  SpecLoop SpecSame PropForest PropTypes.
Import ListNotations.
Open Scope Z_scope.

(** Draws: always grow, at the last leaf; the first variable allowed or the
    cutpoint number [bits], modulo how many there are; always accept. *)
Definition orng (bits : Z) : rng xops := {|
  r_unif := fun k i => (if i =? 0 then 0 else xone - 1) : @F xops;
  r_unif_to := fun k hi => (100 * hi / 101) : @F xops;
  r_bits := fun k => bits;
  r_normal := fun k i => 0 : @F xops;
  r_gamma := fun k a => a
|}.

#[global] Instance orng_laws : forall bits, rlaws (orng bits).
Proof.
  intros bits. constructor; cbn [xops orng F flt fle f0 f1 r_unif r_unif_to]; intros;
    rewrite ?Z.ltb_lt, ?Z.ltb_ge, ?Z.leb_le in *.
  - unfold xone. destruct (i =? 0); lia.
  - unfold xone. destruct (i =? 0); lia.
  - apply Z.div_pos; lia.
  - apply Z.div_lt_upper_bound; lia.
Qed.

(** 255 cutpoints for the first predictor, as with the default numcut of gbart
    and at least 256 different values; one tree of depth 3 *)
Definition oset (points : list (list Z)) (ms : list Z) (bits : Z) (mp : option Z) : @settings xops := {|
  i_X := points;
  i_y := map (fun n => n * xone : @F xops) [-3; 4; 4; -2; -5; 6];
  i_max_split := ms;
  i_split_bits := bits;
  i_num_trees := 1;
  i_p_nonterminal := [xone * 19 / 20; xone * 19 / 20] : list (@F xops);
  i_sigma2_alpha := (xone : @F xops);
  i_sigma2_beta := (xone : @F xops);
  i_min_points := mp;
  i_resid_batch := None;
  i_count_batch := None;
  i_save_ratios := true
|}.

Definition one_pred : list (list Z) := [[0]; [255]; [255]; [3]; [0]; [255]].
Definition two_pred : list (list Z) := [[0; 0]; [255; 1]; [255; 0]; [3; 1]; [0; 1]; [255; 1]].

(** The same settings with another minimum number of points per leaf *)
Definition with_min_points (s : @settings xops) (mp : option Z) : @settings xops :=
  mksettings (i_X s) (i_y s) (i_max_split s) (i_split_bits s) (i_num_trees s) (i_p_nonterminal s)
    (i_sigma2_alpha s) (i_sigma2_beta s) mp (i_resid_batch s) (i_count_batch s) (i_save_ratios s).

Lemma oset_ok : forall points ms, zlen points = 6 -> 1 <= zlen ms < 2 ^ 64 ->
  (forall m, In m ms -> 0 <= m <= 255) -> settings_ok (oset points ms 8 (Some 1)).
Proof.
  intros points ms Hp Hl Hm.
  constructor; cbn [oset i_X i_y i_max_split i_split_bits i_num_trees i_p_nonterminal
    i_count_batch i_resid_batch i_min_points].
  - unfold zlen; simpl; lia.
  - exact Hp.
  - reflexivity.
  - exact Hl.
  - lia.
  - intros m H. specialize (Hm m H). change (2 ^ 8) with 256. lia.
  - right. exists 1. split; [reflexivity | lia].
  - intros x H. right. repeat destruct H as [<- | H]; try reflexivity. destruct H.
  - discriminate.
  - discriminate.
Qed.

Definition orun (r : Z) (s : @settings xops) : @bart xops :=
  chain (zo := zclip) (foo := xclip) (g := orng r) (init_of (foo := xclip) s) (KRoot 0) 2.

Lemma orun_reached : forall r s, reached (zo := zclip) (foo := xclip) s (orun r s).
Proof.
  intros r s. unfold orun. cbn [chain].
  apply (reached_step _ _ (orng r) _ (orng_laws r)). apply (reached_step _ _ (orng r) _ (orng_laws r)). apply reached_init.
Qed.

Lemma not_reachable_7 : ~ reachable [0; 255; 0; 0] 7.
Proof.
  intros R. apply (reachable_parent _ 7) in R; [| lia]. destruct R as [_ [_ D]]. apply D. reflexivity.
Qed.

Definition os : @settings xops := oset one_pred [255] 8 None.
Definition ot : @tree xops := nth 0 (trees (orun 65024 os)) (mktree [] [] [] [] None).

(** the root has the rule x >= 255; growing its right child has stored split 0
    there, and moved the points as if there was a rule *)
Lemma ot_facts : In ot (trees (orun 65024 os)) /\
  t_idx ot = [2; 7; 7; 2; 2; 7] /\ t_split ot = [0; 255; 0; 0] /\
  t_idx ot <> map (fun x => leaf_of (Z.to_nat (depth_of os) - 1) x (t_var ot) (t_split ot) 1)
                (points_of (zo := zclip) os).
Proof.
  split; [apply nth_In; vm_compute; lia |]. split; [vm_compute; reflexivity |].
  split; [vm_compute; reflexivity |]. vm_compute. discriminate.
Qed.

(** C06. Without a minimum number of points per leaf, and with as many cutpoints
    as the largest value of their type, the recorded leaf of a data point can
    be a node which is not even part of the tree. With a minimum of 1 the same
    settings would meet the conditions of the theorems. *)
Theorem C06_overflow_refuted : exists (s : @settings xops) b t,
  i_min_points s = None /\ settings_ok (with_min_points s (Some 1)) /\
  reached (zo := zclip) (foo := xclip) s b /\ In t (trees b) /\
  t_idx t <> map (fun x => leaf_of (Z.to_nat (depth_of s) - 1) x (t_var t) (t_split t) 1)
               (points_of (zo := zclip) s) /\
  exists i, In i (t_idx t) /\ ~ reachable (t_split t) i.
Proof.
  exists os, (orun 65024 os), ot.
  destruct ot_facts as (H1 & H2 & H3 & H4).
  split; [reflexivity |]. split; [| split; [apply orun_reached | split; [exact H1 | split; [exact H4 |]]]].
  - change (settings_ok (oset one_pred [255] 8 (Some 1))). apply oset_ok.
    + reflexivity.
    + unfold zlen; simpl; lia.
    + intros m [<- | []]. lia.
  - exists 7. rewrite H2, H3. split; [right; left; reflexivity | exact not_reachable_7].
Qed.
Print Assumptions C06_overflow_refuted.

(** C39. A type that holds the number of cutpoints, but not the next integer,
    can give another sequence of forests than a larger type. *)
Theorem C39_cutpoint_type_refuted : exists (s : @settings xops) (g : rng xops) bits k n,
  settings_ok s /\ rlaws g /\ i_split_bits s <= bits /\
  ~ same_sample (chain (zo := zclip) (foo := xclip) (init_of (foo := xclip) s) k n)
      (chain (zo := zclip) (foo := xclip) (init_of (foo := xclip) (with_split_bits s bits)) k n).
Proof.
  exists (oset two_pred [255; 1] 8 (Some 1)), (orng 254), 16, (KRoot 0), 2%nat.
  split; [| split; [apply orng_laws | split]].
  - apply oset_ok; try reflexivity.
    + unfold zlen; simpl; lia.
    + intros m [<- | [<- | []]]; lia.
  - cbn. lia.
  - intros (_ & H & _). vm_compute in H. discriminate.
Qed.
Print Assumptions C39_cutpoint_type_refuted.
