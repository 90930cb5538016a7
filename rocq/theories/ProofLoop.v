(** Lemmas about the MCMC loop. *)
From Coq Require Import ZArith List Bool String Lia.
From Verif Require Import Base LemBase ModelJaxext ModelGrove ModelStep ModelLoop SpecLoop.
Import ListNotations.
Open Scope Z_scope.

Lemma lookup_in {A} (d : list (string * A)) f :
  lookup d f <> None <-> In f (keys d).
Proof.
  induction d as [| [k v] d IH]; cbn [lookup keys map fst In].
  - tauto.
  - destruct (String.eqb_spec k f) as [-> | H].
    + split; [auto | discriminate].
    + fold (keys d). rewrite IH. tauto.
Qed.

Section Loop.
  Context {fo : fops} {zo : zoob} {foo : foob fo} {g : rng fo}.

  Lemma step_ratios b k : ratios (step b k) = None <-> ratios b = None.
  Proof.
    unfold step, sample_trees, sample_sigma, accept_moves_and_sample_leaves.
    destruct (sequential_stage _ _ _ _ _) as [r aa].
    cbn [set_sigma2 ratios]. destruct (ratios b); split; congruence.
  Qed.

  Definition base_keys : list string :=
    ["leaf_trees"; "var_trees"; "split_trees"; "resid"; "sigma2";
     "grow_prop_count"; "grow_acc_count"; "prune_prop_count"; "prune_acc_count";
     "p_nonterminal"; "p_propose_grow"; "sigma2_alpha"; "sigma2_beta"; "max_split";
     "y"; "X"; "leaf_indices"; "min_points_per_leaf"; "affluence_trees"; "opt"]%string.

  Lemma keys_state (b : bart) : keys (state_items b) =
    base_keys ++ match ratios b with None => [] | Some _ => ["ratios"%string] end.
  Proof. unfold state_items, keys. rewrite map_app. destruct (ratios b); reflexivity. Qed.

  Lemma chain_ratios b k n : ratios (chain b k n) = None <-> ratios b = None.
  Proof. induction n; cbn [chain]; [tauto |]. now rewrite step_ratios. Qed.

  Lemma keys_chain b k n : keys (state_items (chain b k n)) = keys (state_items b).
  Proof.
    rewrite !keys_state. pose proof (chain_ratios b k n).
    destruct (ratios (chain b k n)), (ratios b); auto; intuition discriminate.
  Qed.

  Lemma has_chain b k n f :
    lookup (state_items (chain b k n)) f <> None <-> lookup (state_items b) f <> None.
  Proof. now rewrite !lookup_in, keys_chain. Qed.

  Lemma lookup_select tl b f :
    lookup (select tl b) f = if existsb (String.eqb f) tl then lookup (state_items b) f else None.
  Proof.
    unfold select. induction tl as [| x tl IH]; cbn [flat_map existsb]; auto.
    destruct (lookup (state_items b) x) as [v |] eqn:Ex; cbn [app lookup].
    - rewrite (String.eqb_sym x f). destruct (String.eqb_spec f x) as [-> | H]; cbn [orb]; auto.
    - rewrite IH. destruct (String.eqb_spec f x) as [-> | H]; cbn [orb]; auto.
      rewrite Ex. now destruct (existsb _ tl).
  Qed.

  Lemma keys_select tl b :
    keys (select tl b) = filter (fun f => existsb (String.eqb f) (keys (state_items b))) tl.
  Proof.
    unfold select. induction tl as [| x tl IH]; cbn [flat_map filter]; auto.
    unfold keys in *. rewrite map_app, IH.
    destruct (lookup (state_items b) x) as [v |] eqn:Ex.
    - assert (Hx : In x (keys (state_items b))) by (apply lookup_in; congruence).
      assert (existsb (String.eqb x) (map fst (state_items b)) = true) as ->; auto.
      apply existsb_exists. exists x. split; auto. apply String.eqb_refl.
    - destruct (existsb (String.eqb x) (map fst (state_items b))) eqn:Ee; auto.
      apply existsb_exists in Ee as [z [Hz E]]. apply String.eqb_eq in E. subst z.
      apply lookup_in in Hz. contradiction.
  Qed.

  Lemma lookup_map_key {A} (l : list string) (h : string -> A) f :
    lookup (map (fun x => (x, h x)) l) f = if existsb (String.eqb f) l then Some (h f) else None.
  Proof.
    induction l as [| x l IH]; cbn [map lookup existsb]; auto.
    rewrite String.eqb_sym. destruct (String.eqb_spec f x) as [-> | H]; auto.
  Qed.

  (** A stacked trace of selected states *)
  Lemma stack_traces tl b k (is : list nat) f : is <> [] ->
    In f tl -> lookup (state_items b) f <> None ->
    traces (stack (map (fun i => select tl (chain b k i)) is)) f (map (chain b k) is).
  Proof.
    intros Hne Hf Hb. destruct is as [| i0 is]; [congruence |]. clear Hne.
    unfold stack. cbn [map]. rewrite <- (map_cons (fun i => select tl (chain b k i))).
    eexists. rewrite lookup_map_key.
    assert (Ef : existsb (String.eqb f) tl = true).
    { apply existsb_exists. exists f. split; auto. apply String.eqb_refl. }
    assert (existsb (String.eqb f) (keys (select tl (chain b k i0))) = true) as ->.
    { apply existsb_exists. exists f. split; [| apply String.eqb_refl].
      apply lookup_in. rewrite lookup_select, Ef. now apply has_chain. }
    split; [reflexivity |].
    rewrite <- (map_cons (chain b k)).
    generalize (i0 :: is) as l. clear i0 is.
    induction l as [| i l IH]; auto. cbn [map flat_map]. rewrite map_app, IH, lookup_select, Ef.
    assert (H : lookup (state_items (chain b k i)) f <> None) by now apply has_chain.
    destruct (lookup (state_items (chain b k i)) f); [reflexivity | congruence].
  Qed.

  Lemma stack_keys tl b k (is : list nat) : is <> [] ->
    keys (stack (map (fun i => select tl (chain b k i)) is)) =
    filter (fun f => existsb (String.eqb f) (keys (state_items b))) tl.
  Proof.
    intros Hne. destruct is as [| i0 is]; [congruence |]. cbn [map stack].
    unfold keys at 1. rewrite map_map. cbn [fst]. rewrite map_id.
    now rewrite keys_select, keys_chain.
  Qed.

  Lemma empty_traces b tl f : lookup (state_items b) f <> None ->
    traces (empty_trace b tl) f [].
  Proof.
    intros H. exists []. split; auto. unfold empty_trace.
    destruct (lookup (state_items b) f) as [v |] eqn:E; [| congruence]. clear H.
    induction (state_items b) as [| [x w] d IH]; cbn in *; [discriminate |].
    destruct (String.eqb x f); auto.
  Qed.

  Section Run.
    Context {E : Type}.
    Variables nb ns nk : Z.
    Variable callback : callback_args -> E.

    (** What the call at iteration [i] receives *)
    Definition event b k (burnin : bool) (i t s : nat) : E :=
      callback (mkargs (chain b k (S i)) burnin (Z.of_nat t) (Z.of_nat s) nb ns nk).

    Lemma scan_inner tl burnin b k n : forall i t s log,
      scan (inner_loop nb ns nk callback tl burnin)
        (chain b k i, Z.of_nat t, Z.of_nat s, chain_key k i, log) n =
      ((chain b k (i + n), Z.of_nat (t + n), Z.of_nat (s + n), chain_key k (i + n),
        rev (map (fun j => event b k burnin (i + j) (t + j) (s + j)) (seq 0 n)) ++ log),
       map (fun j => select tl (chain b k j)) (seq (S i) n)).
    Proof.
      induction n as [| n IH]; intros i t s log; cbn [scan seq map rev].
      - now rewrite !Nat.add_0_r.
      - unfold inner_loop at 1.
        change (step (chain b k i) (KSplit (chain_key k i) 2 1)) with (chain b k (S i)).
        change (KSplit (chain_key k i) 2 0) with (chain_key k (S i)).
        replace (Z.of_nat t + 1) with (Z.of_nat (S t)) by lia.
        replace (Z.of_nat s + 1) with (Z.of_nat (S s)) by lia.
        rewrite IH. rewrite !Nat.add_succ_l, !Nat.add_succ_r. f_equal.
        f_equal. rewrite <- seq_shift, map_map.
        rewrite <- app_assoc. cbn [app]. rewrite !Nat.add_0_r. f_equal.
        f_equal. apply map_ext. intros j. now rewrite !Nat.add_succ_l, !Nat.add_succ_r.
    Qed.

    Definition events b k (burnin : bool) (i n : nat) : list E :=
      map (fun j => event b k burnin (i + j) (i + j) j) (seq 0 n).

    Lemma scan_outer b k n : forall i log,
      scan (outer_loop nb ns nk callback)
        (chain b k i, Z.of_nat i, chain_key k i, log) n =
      ((chain b k (i + n * Z.to_nat nk), Z.of_nat (i + n * Z.to_nat nk),
        chain_key k (i + n * Z.to_nat nk),
        rev (flat_map (fun j => events b k false (i + j * Z.to_nat nk) (Z.to_nat nk)) (seq 0 n)) ++ log),
       map (fun j => select tracelist_main (chain b k (i + S j * Z.to_nat nk))) (seq 0 n)).
    Proof.
      set (m := Z.to_nat nk).
      induction n as [| n IH]; intros i log; cbn [scan seq map flat_map rev].
      - now rewrite !Nat.add_0_r.
      - unfold outer_loop at 1. fold m.
        change 0 with (Z.of_nat 0) at 1. rewrite scan_inner.
        rewrite IH. f_equal; [f_equal |].
        + replace (i + m + n * m)%nat with (i + S n * m)%nat by lia. reflexivity.
        + rewrite rev_app_distr, <- app_assoc. f_equal.
          * f_equal. rewrite <- seq_shift, flat_map_concat_map, (flat_map_concat_map _ (map S _)), map_map.
            f_equal. apply map_ext. intros j. f_equal; lia.
          * cbn [Nat.mul]. rewrite Nat.add_0_r. reflexivity.
        + cbn [Nat.mul]. f_equal; [f_equal; f_equal; lia |].
          rewrite <- seq_shift, map_map. apply map_ext. intros j. f_equal. f_equal. lia.
    Qed.
  End Run.
End Loop.
