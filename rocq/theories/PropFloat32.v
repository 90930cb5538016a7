(** The properties of the sampler that do not need exact arithmetic, in IEEE
    754 single precision and with random numbers made from bits as jax does.
    Cumulative sums are computed from left to right; PropCumsum.v shows that it
    matters. *)
From Coq Require Import ZArith List Bool Lia.
From Flocq Require Import BinarySingleNaN.
From Verif Require Import Base LemBase ModelJaxext ModelGrove ModelStep SpecTree SpecForest SpecRange SpecRun
  Laws Laws32 PropForest Examples ExampleRun.
Import ListNotations.
Open Scope Z_scope.

Section Float32.
  (** The functions computed by other libraries, the random bits, the normal and gamma
      draws are arbitrary. *)
  Context (log log1p : b32 -> b32) (bits : key -> Z -> Z) (normal : key -> Z -> b32) (gamma : key -> b32 -> b32).
  Let ops := ops32 log log1p.
  Context {zo : zoob} {foo : foob ops}.

  (** The state after steps with the given keys *)
  Definition run32 (s : @settings ops) (ks : list key) : @bart ops :=
    fold_left (@step ops zo foo (gen32 log log1p bits normal gamma)) ks (init_of s).

  Lemma run32_reached (s : @settings ops) ks : reached s (run32 s ks).
  Proof.
    unfold run32. rewrite <- (rev_involutive ks). induction (rev ks) as [| k l IH]; [apply reached_init |].
    cbn [rev]. rewrite fold_left_app. cbn [fold_left]. apply reached_step; [apply gen32_laws | exact IH].
  Qed.

  (** C05 *)
  Theorem C05_float32 : forall (s : @settings ops) ks, settings_ok s ->
    zlen (trees (run32 s ks)) = Z.max 0 (i_num_trees s) /\
    forall t, In t (trees (run32 s ks)) ->
      zlen (t_leaf t) = 2 ^ depth_of s /\
      zlen (t_var t) = 2 ^ (depth_of s - 1) /\
      zlen (t_split t) = 2 ^ (depth_of s - 1) /\
      entry (t_var t) 0 = 0 /\ entry (t_split t) 0 = 0 /\
      no_stray (t_split t).
  Proof. intros s ks OK. apply C05_forest_well_formed; [exact OK | apply run32_reached]. Qed.

  (** C06 *)
  Theorem C06_float32 : forall (s : @settings ops) ks t, settings_ok s -> In t (trees (run32 s ks)) ->
    t_idx t = map (fun x => leaf_of (Z.to_nat (depth_of s) - 1) x (t_var t) (t_split t) 1) (points_of s) /\
    t_idx t = map (fun x => traverse_tree x (t_var t) (t_split t)) (i_X s).
  Proof. intros s ks t OK H. eapply C06_leaf_indices; [exact OK | apply run32_reached | exact H]. Qed.

  (** C08 *)
  Theorem C08_float32 : forall (s : @settings ops) ks t m, settings_ok s -> In t (trees (run32 s ks)) ->
    i_min_points s = Some m -> (exists i, decision (t_split t) i) ->
    forall i, leaf_node (t_split t) i ->
      m <= points_in (depth_of s) (points_of s) (t_var t) (t_split t) i.
  Proof. intros s ks t m OK H. eapply C08_min_points_per_leaf; [exact OK | apply run32_reached | exact H]. Qed.

  (** C10 *)
  Theorem C10_float32 : forall (s : @settings ops) ks t m, settings_ok s -> In t (trees (run32 s ks)) ->
    i_min_points s = Some m -> 1 <= m ->
    (forall x, In x (i_X s) -> zlen x = zlen (i_max_split s)) ->
    (forall x v, In x (i_X s) -> 0 <= v < zlen (i_max_split s) -> 0 <= entry x v <= entry (i_max_split s) v) ->
    forall i, decision (t_split t) i ->
      0 <= entry (t_var t) i < zlen (i_max_split s) /\
      1 <= entry (t_split t) i <= entry (i_max_split s) (entry (t_var t) i) /\
      valid_rule (t_var t) (t_split t) (i_max_split s) i.
  Proof. intros s ks t m OK H. eapply C10_rules_valid; [exact OK | apply run32_reached | exact H]. Qed.
End Float32.
Print Assumptions C05_float32.
Print Assumptions C06_float32.
Print Assumptions C08_float32.
Print Assumptions C10_float32.

(** A run that grows trees, with crude functions in place of the logarithms *)
Definition log32 (x : b32) : b32 := Bminus mode_NE x (b32_of 1 0).
Definition ops_ex : fops := ops32 log32 (fun x => x).
#[local] Instance foo_ex : foob ops_ex := {| fmode := mkoob true (b32_0 : @F ops_ex) |}.
Fixpoint key_hash (k : key) : Z :=
  match k with KRoot s => s | KSplit k n i => (key_hash k * 8121 + n * 28411 + i * 7919) mod 8388593 end.
Definition settings32 : @settings ops_ex := {|
  i_X := i_X ex_settings; i_y := map (fun z => b32_of z (-1) : @F ops_ex) [3; 5; -4; 0; 2; -7];
  i_max_split := i_max_split ex_settings; i_split_bits := i_split_bits ex_settings; i_num_trees := 3;
  i_p_nonterminal := [b32_of 15 (-4); b32_of 1 (-1); b32_of 1 (-2)] : list (@F ops_ex);
  i_sigma2_alpha := b32_of 1 0 : @F ops_ex; i_sigma2_beta := b32_of 1 0 : @F ops_ex;
  i_min_points := Some 1; i_resid_batch := Some 2; i_count_batch := None; i_save_ratios := false
|}.
Definition run_ex (n : nat) : @bart ops_ex :=
  @run32 log32 (fun x => x) (fun k i => (key_hash k * 7121 + i * 48271) mod 8388593) (fun _ i => b32_of (1 - i) 0) (fun _ _ => b32_of 1 0) zclip foo_ex settings32
    (map KRoot (arange (Z.of_nat n))).
Example float32_example : settings_ok settings32 /\
  exists t i, In t (trees (run_ex 6)) /\ decision (t_split t) i.
Proof.
  split.
  - pose proof ex_settings_ok as OK. constructor; cbn [settings32 i_X i_y i_max_split i_split_bits i_num_trees i_p_nonterminal i_count_batch i_resid_batch i_min_points].
    + unfold zlen; simpl; lia.
    + reflexivity.
    + reflexivity.
    + apply OK.
    + apply OK.
    + apply OK.
    + apply OK.
    + intros x Hx. right. repeat destruct Hx as [<- | Hx]; try (vm_compute; reflexivity). destruct Hx.
    + discriminate.
    + intros k H. injection H as <-. lia.
  - assert (H : existsb (fun t => negb (entry (t_split t) 1 =? 0)) (trees (run_ex 6)) = true) by (vm_compute; reflexivity).
    revert H. generalize (trees (run_ex 6)). intros l H. apply existsb_exists in H as (t & H1 & H2). exists t, 1. split; [exact H1 |]. split; [lia |].
    apply Z.eqb_neq. now apply negb_true_iff.
Qed.
