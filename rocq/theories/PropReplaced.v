(** C57: the guarantees of the sampler when [initkw] replaces its arguments *)
From Coq Require Import ZArith List Bool Reals String Lia Lra.
From Verif Require Import Base LemBase Laws ModelJaxext ModelGrove ModelStep ModelLoop ModelBatchSize ModelBART
  ModelInitkw SpecRun SpecInitkw SpecTree SpecForest PropForest PropBatchSize PropInitkw.
Import ListNotations.
Open Scope Z_scope.

(** Replacements that make sense: the data are not replaced, probabilities are
    not negative, sizes are positive. *)
Record sensible (k : string) (v : argval) : Prop := {
  sn_data : ~ In k ["X"; "y"; "max_split"]%string;
  sn_prior : forall l, k = "p_nonterminal"%string -> v = AFloats l -> 1 <= zlen l <= 63 /\ forall q, In q l -> (0 <= q)%R;
  sn_points : k = "min_points_per_leaf"%string -> exists m, v = AInt m /\ 1 <= m;
  sn_batch : forall m, k = "resid_batch_size"%string \/ k = "count_batch_size"%string -> v = AInt m -> 1 <= m
}.

Section Replaced.
  Context {zo : zoob} {foo : foob rops}.
  Context (e1 e2 e3 : Z -> Z) (platform : string).
  Context (x : list (list Z)) (y : list R) (max_split : list Z) (bits : Z)
    (lamda sigdf power base : R) (maxdepth ntree : Z).
  Notation setup := (setup_mcmc_kw e1 e2 e3 platform x y max_split bits lamda sigdf power base maxdepth ntree).

  (** C57. If the settings without [initkw] are valid, so are those with it, hence
      what is proved of the states the sampler reaches holds. *)
  Theorem C57_valid : forall initkw s, platform = "cpu"%string \/ platform = "gpu"%string -> NoDup (map fst initkw) ->
    settings_ok (setup_mcmc x y max_split bits lamda sigdf power base maxdepth ntree (mkinitkw None None None false)) ->
    (forall k v, In (k, v) initkw -> sensible k v) -> setup initkw = Some s ->
    settings_ok s /\ i_X s = x /\ i_y s = y /\ i_max_split s = max_split.
  Proof.
    intros kw s Hp N OK S C.
    destruct (C57_override e1 e2 e3 platform _ _ _ _ _ _ _ _ _ _ kw s N C) as [U D].
    destruct (C57_auto e1 e2 e3 platform _ _ _ _ _ _ _ _ _ _ kw s Hp N C) as [AR AC].
    assert (G : forall k, (exists v, In (k, v) kw) \/ ~ In k (map fst kw)).
    { intros k. destruct (in_dec string_dec k (map fst kw)) as [H | H]; [left | now right].
      apply in_map_iff in H as ([k' v] & <- & H). now exists v. }
    assert (Dt : forall k, In k ["X"; "y"; "max_split"]%string -> ~ In k (map fst kw)).
    { intros k Hk. destruct (G k) as [[v H] | H]; [| exact H]. destruct (sn_data _ _ (S _ _ H) Hk). }
    assert (EX : i_X s = x).
    { pose proof (uses_X _ _ _ (D "X"%string (AMatrix x) (Dt "X"%string ltac:(cbn; tauto)) ltac:(unfold gbart_default; tauto)) eq_refl). congruence. }
    assert (EY : i_y s = y).
    { pose proof (uses_y _ _ _ (D "y"%string (AFloats y) (Dt "y"%string ltac:(cbn; tauto)) ltac:(unfold gbart_default; tauto)) eq_refl). congruence. }
    assert (EM : AInts bits max_split = AInts (i_split_bits s) (i_max_split s)).
    { apply (uses_max_split _ _ _ (D "max_split"%string (AInts bits max_split) (Dt "max_split"%string ltac:(cbn; tauto)) ltac:(unfold gbart_default; tauto)) eq_refl). }
    injection EM as EB EM.
    assert (EP : 1 <= zlen (i_p_nonterminal s) <= 63 /\ forall q : R, In q (i_p_nonterminal s) -> (0 <= q)%R).
    { destruct (G "p_nonterminal"%string) as [[v H] | H].
      - apply (sn_prior _ _ (S _ _ H)); auto. now apply (uses_p_nonterminal _ _ _ (U _ _ H)).
      - set (p0 := i_p_nonterminal (setup_mcmc x y max_split bits lamda sigdf power base maxdepth ntree (mkinitkw None None None false))).
        assert (E : AFloats p0 = AFloats (i_p_nonterminal s)).
        { refine (uses_p_nonterminal _ _ _ (D "p_nonterminal"%string (AFloats p0) H _) eq_refl).
          unfold gbart_default. do 4 right. left. split; [reflexivity |]. exists p0. split; [reflexivity |].
          assert (L : List.length (arange (maxdepth - 1)) = Z.to_nat (maxdepth - 1)).
          { unfold arange. now rewrite map_length, seq_length. }
          unfold p0. cbn [setup_mcmc i_p_nonterminal]. split.
          - unfold zlen. rewrite map_length, L. lia.
          - intros d Hd. rewrite (nth_indep _ 0%R ((fun d => base / Rpower (IZR (1 + d)) power)%R 0)).
            2: { rewrite map_length, L. lia. }
            rewrite (map_nth (fun d => base / Rpower (IZR (1 + d)) power)%R). unfold arange.
            change 0 with (Z.of_nat 0) at 1. rewrite map_nth, seq_nth by lia. now rewrite Nat.add_0_l, Z2Nat.id by lia. }
        injection E as <-. split; [apply (ok_depth _ OK) |]. intros q Hq.
        destruct (ok_p_nonterminal _ OK q Hq) as [-> | E]; [cbn; lra |]. cbn in E. apply Rltb_spec in E. lra. }
    assert (EK : exists m, i_min_points s = Some m /\ 1 <= m).
    { destruct (G "min_points_per_leaf"%string) as [[v H] | H].
      - destruct (sn_points _ _ (S _ _ H) eq_refl) as (m & -> & Hm).
        pose proof (uses_min_points _ _ _ (U _ _ H) eq_refl) as E.
        destruct (i_min_points s) as [m' |]; [| discriminate]. injection E as <-. now exists m.
      - pose proof (uses_min_points _ _ _ (D "min_points_per_leaf"%string (AInt 5) H ltac:(unfold gbart_default; tauto)) eq_refl) as E.
        destruct (i_min_points s) as [m' |]; [| discriminate]. injection E as <-. exists 5. split; [reflexivity | lia]. }
    assert (ER : forall k, i_resid_batch s = Some k -> 1 <= k).
    { intros k Hk. destruct (G "resid_batch_size"%string) as [[v H] | H].
      - destruct (uses_resid _ _ _ (U _ _ H) eq_refl) as [-> | E].
        + destruct (AR (or_intror H)) as (k' & E & Hk'). congruence.
        + rewrite Hk in E. apply (sn_batch _ _ (S _ _ H)); auto.
      - destruct (AR (or_introl H)) as (k' & E & Hk'). congruence. }
    assert (EC : forall k, i_count_batch s = Some k -> 1 <= k).
    { assert (A : (if String.eqb platform "cpu" then i_count_batch s = None
         else exists k, i_count_batch s = Some k /\ 1 <= k /\
           (0 <= i_num_trees s -> 2 ^ depth_of s * i_num_trees s * 4 * zlen (i_y s) <= 2 ^ 29 * k)) ->
         forall k, i_count_batch s = Some k -> 1 <= k).
      { destruct (String.eqb platform "cpu"); [congruence |]. intros (k' & E & Hk' & _) k Hk. congruence. }
      intros k Hk. destruct (G "count_batch_size"%string) as [[v H] | H].
      - destruct (uses_count _ _ _ (U _ _ H) eq_refl) as [-> | E].
        + exact (A (AC (or_intror H)) k Hk).
        + rewrite Hk in E. apply (sn_batch _ _ (S _ _ H)); auto.
      - exact (A (AC (or_introl H)) k Hk). }
    split; [| auto]. destruct OK as [O1 O2 O3 O4 O5 O6 O7 O8 O9 O10].
    cbn [setup_mcmc i_X i_y i_max_split i_split_bits i_num_trees i_p_nonterminal i_min_points i_count_batch i_resid_batch] in *.
    constructor; rewrite ?EX, ?EY, <- ?EM, <- ?EB; auto; try apply EP.
    intros q Hq. apply (proj2 EP) in Hq. destruct Hq as [Hq | <-]; [right; now apply Rltb_spec | now left].
  Qed.

  (** C57. For instance the minimum number of points per leaf in [initkw] is
      respected in every state the sampler reaches. *)
  Theorem C57_min_points : forall initkw s b t m, platform = "cpu"%string \/ platform = "gpu"%string -> NoDup (map fst initkw) ->
    settings_ok (setup_mcmc x y max_split bits lamda sigdf power base maxdepth ntree (mkinitkw None None None false)) ->
    (forall k v, In (k, v) initkw -> sensible k v) -> setup initkw = Some s ->
    In ("min_points_per_leaf"%string, AInt m) initkw ->
    reached s b -> In t (trees b) -> (exists i, decision (t_split t) i) ->
    forall i, leaf_node (t_split t) i -> m <= points_in (depth_of s) (map (gather zmode) x) (t_var t) (t_split t) i.
  Proof.
    intros kw s b t m Hp N OK S C H R Ht D i L.
    destruct (C57_valid kw s Hp N OK S C) as (OK' & EX & _).
    destruct (C57_override e1 e2 e3 platform _ _ _ _ _ _ _ _ _ _ kw s N C) as [U _].
    pose proof (uses_min_points _ _ _ (U _ _ H) eq_refl) as E.
    destruct (i_min_points s) as [m' |] eqn:Em; [| discriminate]. injection E as <-.
    rewrite <- EX. now apply (C08_min_points_per_leaf s b t m).
  Qed.
End Replaced.
Print Assumptions C57_valid.
Print Assumptions C57_min_points.

(** valid settings, and a dictionary of sensible replacements that is accepted *)
Definition ex_replaced : list (string * argval) :=
  [("min_points_per_leaf", AInt 1); ("num_trees", AInt 2); ("p_nonterminal", AFloats [0.5%R; 0.25%R]);
   ("count_batch_size", AAuto); ("resid_batch_size", AInt 2)]%string.
Example replaced_example :
  settings_ok (setup_mcmc [[1]; [2]; [0]] [0.1%R; 0.2%R; 0.4%R] [3] 8 1 3 2 0.95 6 200 (mkinitkw None None None false)) /\
  NoDup (map fst ex_replaced) /\ (forall k v, In (k, v) ex_replaced -> sensible k v) /\
  exists s, setup_mcmc_kw (fun _ => 3) (fun _ => 2) (fun _ => 1) "cpu" [[1]; [2]; [0]] [0.1%R; 0.2%R; 0.4%R] [3] 8 1 3 2 0.95 6 200
    ex_replaced = Some s /\ i_min_points s = Some 1 /\ i_num_trees s = 2 /\ depth_of s = 3.
Proof.
  split; [| split; [| split]].
  - constructor; cbn [setup_mcmc i_X i_y i_max_split i_split_bits i_p_nonterminal i_min_points i_count_batch i_resid_batch];
      try discriminate; try (vm_compute; split; congruence); try (vm_compute; congruence).
    1: intros m [<- | []]; vm_compute; split; congruence.
    1: left; intros m [<- | []]; reflexivity.
    1: intros q Hq; right; apply in_map_iff in Hq as (d & <- & _); apply Rltb_spec;
      apply Rdiv_lt_0_compat; [cbn; lra | apply exp_pos].
  - cbn [ex_replaced map fst]. repeat constructor; cbn [In]; intuition discriminate.
  - intros k v H. cbn [ex_replaced In] in H.
    repeat (destruct H as [H | H]; [injection H as <- <-; constructor; intros; try discriminate;
      try (cbn [In]; intuition discriminate) |]); try (destruct H).
    all: try (eexists; split; [reflexivity | lia]).
    all: repeat match goal with H : AInt _ = AInt _ |- _ => injection H as <- | H : AFloats _ = AFloats _ |- _ => injection H as <-
      | H : _ \/ _ |- _ => destruct H; try discriminate end; try lia.
    split; [vm_compute; split; congruence |]. intros q [<- | [<- | []]]; lra.
  - eexists. split; [reflexivity |]. repeat split.
Qed.
