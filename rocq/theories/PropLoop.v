(** Properties of the MCMC loop: C31-C33, C40, C43. *)
From Coq Require Import ZArith List Bool String Ascii Lia.
From Verif Require Import Base LemBase ModelJaxext ModelGrove ModelStep ModelLoop SpecLoop ProofLoop
  Laws SpecRun ExampleRun.
Import ListNotations.
Open Scope Z_scope.

Lemma seq_from a n : seq a n = map (fun x => a + x)%nat (seq 0 n).
Proof.
  induction a; cbn [Nat.add]; [now rewrite map_id |].
  rewrite <- seq_shift, IHa, map_map. reflexivity.
Qed.

Lemma blocks {A} (h : nat -> nat -> A) (m : nat) : forall n i,
  flat_map (fun j => map (fun r => h (i + j * m + r)%nat r) (seq 0 m)) (seq 0 n) =
  map (fun q => h (i + q)%nat (q mod m)%nat) (seq 0 (n * m)).
Proof.
  induction n as [| n IH]; intros i; auto.
  cbn [seq flat_map Nat.mul]. rewrite seq_app, map_app. f_equal.
  - apply map_ext_in. intros r Hr. apply in_seq in Hr.
    rewrite Nat.mod_small by lia. f_equal; lia.
  - rewrite <- seq_shift, flat_map_concat_map, map_map, <- flat_map_concat_map.
    erewrite flat_map_ext; [rewrite (IH (i + m)%nat) |].
    + rewrite Nat.add_0_l, (seq_from m), map_map. apply map_ext_in. intros q Hq. apply in_seq in Hq.
      destruct (Nat.eq_dec m 0) as [-> | Hm]; [lia |].
      f_equal; [lia |]. rewrite Nat.add_comm, Nat.add_mod, Nat.mod_same by auto.
      rewrite Nat.add_0_r, Nat.mod_mod; auto.
    + intros j. apply map_ext. intros r. f_equal; lia.
Qed.

Section Props.
  Context {fo : fops} {zo : zoob} {foo : foob fo} {g : rng fo}.

  (** ** The whole run *)
  Section Run.
    Context {E : Type}.
    Variables nb ns nk : Z.
    Hypothesis (Hb : 0 <= nb) (Hs : 0 <= ns) (Hk : 0 <= nk).
    Variable callback : callback_args -> E.
    Variables (b : bart) (k : key).

    Let N := Z.to_nat (nb + ns * nk).

    (** The arguments the callback should receive at iteration [i] *)
    Definition expected_call (i : nat) : callback_args :=
      {| cb_bart := chain b k (S i);
         cb_burnin := Z.of_nat i <? nb;
         cb_i_total := Z.of_nat i;
         cb_i_skip := if Z.of_nat i <? nb then Z.of_nat i else (Z.of_nat i - nb) mod nk;
         cb_n_burn := nb; cb_n_save := ns; cb_n_skip := nk |}.

    Lemma burn_events :
      map (fun j => event nb ns nk callback b k true (0 + j) (0 + j) (0 + j)) (seq 0 (Z.to_nat nb)) =
      map (fun i => callback (expected_call i)) (seq 0 (Z.to_nat nb)).
    Proof.
      apply map_ext_in. intros j Hj. apply in_seq in Hj. unfold event, expected_call.
      destruct (Z.ltb_spec (Z.of_nat j) nb); [reflexivity | lia].
    Qed.

    Lemma main_events :
      flat_map (fun j => events nb ns nk callback b k false (Z.to_nat nb + j * Z.to_nat nk) (Z.to_nat nk))
        (seq 0 (Z.to_nat ns)) =
      map (fun i => callback (expected_call i))
        (seq (Z.to_nat nb) (Z.to_nat (ns * nk))).
    Proof.
      unfold events.
      rewrite (blocks (fun q r => event nb ns nk callback b k false q q r)).
      rewrite Z2Nat.inj_mul by lia.
      rewrite (seq_from (Z.to_nat nb)), map_map. apply map_ext_in. intros q Hq. apply in_seq in Hq.
      unfold event, expected_call.
      destruct (Z.ltb_spec (Z.of_nat (Z.to_nat nb + q)) nb); [lia |]. f_equal. f_equal.
      replace (Z.of_nat (Z.to_nat nb + q) - nb) with (Z.of_nat q) by lia.
      rewrite Nat2Z.inj_mod. now rewrite Z2Nat.id by lia.
    Qed.

    (** The states in the two traces *)
    Definition burnin_states : list nat := seq 1 (Z.to_nat nb).
    Definition main_states : list nat :=
      map (fun j => Z.to_nat nb + S j * Z.to_nat nk)%nat (seq 0 (Z.to_nat ns)).

    Lemma run_value : exists bt mt,
      run_mcmc nb ns nk callback b k =
        (chain b k N, bt, mt, map (fun i => callback (expected_call i)) (seq 0 N)) /\
      bt = (if 0 <? nb then stack (map (fun i => select tracelist_burnin (chain b k i)) burnin_states)
            else empty_trace b tracelist_burnin) /\
      mt = (if 0 <? ns then stack (map (fun i => select tracelist_main (chain b k i)) main_states)
            else empty_trace (chain b k (Z.to_nat nb)) tracelist_main).
    Proof.
      eexists _, _. split; [| split; reflexivity].
      unfold run_mcmc.
      assert (EB : (if 0 <? nb
        then let '(bart0, i_total, _, k0, log, outs) :=
               scan (inner_loop nb ns nk callback tracelist_burnin true) (b, 0, 0, k, []) (Z.to_nat nb) in
             (bart0, i_total, k0, stack outs, log)
        else (b, 0, k, empty_trace b tracelist_burnin, [])) =
        (chain b k (Z.to_nat nb), Z.of_nat (Z.to_nat nb), chain_key k (Z.to_nat nb),
         if 0 <? nb then stack (map (fun i => select tracelist_burnin (chain b k i)) burnin_states)
         else empty_trace b tracelist_burnin,
         rev (map (fun i => callback (expected_call i)) (seq 0 (Z.to_nat nb))))).
      { destruct (Z.ltb_spec 0 nb) as [Hp | Hn].
        - pose proof (scan_inner nb ns nk callback tracelist_burnin true b k (Z.to_nat nb) 0 0 0 []) as H.
          cbn [chain chain_key] in H. change (Z.of_nat 0) with 0 in H. rewrite H.
          rewrite burn_events, app_nil_r, !Nat.add_0_l. reflexivity.
        - replace nb with 0 by lia. reflexivity. }
      rewrite EB. clear EB.
      destruct (Z.ltb_spec 0 ns) as [Hp | Hn].
      - rewrite scan_outer, main_events.
        replace (Z.to_nat nb + Z.to_nat ns * Z.to_nat nk)%nat with N
          by (unfold N; rewrite Z2Nat.inj_add, Z2Nat.inj_mul by nia; reflexivity).
        rewrite rev_app_distr, !rev_involutive, <- map_app, <- seq_app.
        replace (Z.to_nat nb + Z.to_nat (ns * nk))%nat with N
          by (unfold N; rewrite Z2Nat.inj_add by nia; reflexivity).
        unfold main_states. rewrite map_map. reflexivity.
      - unfold N. assert (ns * nk = 0) as -> by (replace ns with 0 by lia; reflexivity). rewrite Z.add_0_r.
        now rewrite rev_involutive.
    Qed.
  End Run.

  (** C31. Whatever the callback does, the final state is the one after
      n_burn + n_save * n_skip iterations; entry i of the burn-in trace is the
      one after i + 1 iterations; entry j of the main trace is the one after
      n_burn + (j + 1) * n_skip iterations. *)
  Theorem C31_schedule : forall E (callback : callback_args -> E) nb ns nk b k,
    0 <= nb -> 0 <= ns -> 0 <= nk ->
    let '(final, burnin_trace, main_trace, _) := run_mcmc nb ns nk callback b k in
    final = chain b k (Z.to_nat (nb + ns * nk)) /\
    (forall field, In field documented_burnin \/ (field = "ratios"%string /\ ratios b <> None) ->
       traces burnin_trace field
         (map (fun i => chain b k (i + 1)) (seq 0 (Z.to_nat nb)))) /\
    (forall field, In field documented_main \/ (field = "ratios"%string /\ ratios b <> None) ->
       traces main_trace field
         (map (fun j => chain b k (Z.to_nat nb + (j + 1) * Z.to_nat nk)) (seq 0 (Z.to_nat ns)))).
  Proof.
    intros E callback nb ns nk b k Hb Hs Hk.
    destruct (run_value nb ns nk Hb Hs Hk callback b k) as (bt & mt & -> & -> & ->).
    split; [reflexivity |].
    assert (Ha : forall field, In field documented_main \/ (field = "ratios"%string /\ ratios b <> None) ->
      lookup (state_items b) field <> None).
    { intros field H. rewrite lookup_in, keys_state. apply in_or_app. destruct H as [H | [-> H]].
      - left. cbn in H |- *. tauto.
      - right. destruct (ratios b); [now left | congruence]. }
    split; intros field H.
    - assert (Hl : lookup (state_items b) field <> None).
      { apply Ha. destruct H as [H | H]; [left | now right]. cbn in H |- *. tauto. }
      assert (Ht : In field tracelist_burnin) by (cbn in H |- *; intuition auto).
      destruct (Z.ltb_spec 0 nb).
      + replace (map (fun i => chain b k (i + 1)) (seq 0 (Z.to_nat nb)))
          with (map (chain b k) (burnin_states nb)).
        * apply stack_traces; auto. unfold burnin_states.
          destruct (Z.to_nat nb) eqn:En; [lia | discriminate].
        * unfold burnin_states. rewrite <- seq_shift, map_map. apply map_ext.
          intros i. now rewrite Nat.add_1_r.
      + replace nb with 0 by lia. now apply empty_traces.
    - assert (Hl : lookup (state_items b) field <> None) by now apply Ha.
      assert (Ht : In field tracelist_main) by (cbn in H |- *; intuition auto).
      destruct (Z.ltb_spec 0 ns).
      + replace (map (fun j => chain b k (Z.to_nat nb + (j + 1) * Z.to_nat nk)) (seq 0 (Z.to_nat ns)))
          with (map (chain b k) (main_states nb ns nk)).
        * apply stack_traces; auto. unfold main_states.
          destruct (Z.to_nat ns) eqn:En; [lia | discriminate].
        * unfold main_states. rewrite map_map. apply map_ext. intros i. now rewrite Nat.add_1_r.
      + replace ns with 0 by lia. apply empty_traces. now apply has_chain.
  Qed.

  (** C32. Two runs with the same initial state and key but different lengths
      of the phases and different callbacks: entries of the main traces that
      correspond to the same number of iterations are equal, and so are the
      final states if the total number of iterations is the same. *)
  Theorem C32_sequential_guarantee :
    forall E E' (callback : callback_args -> E) (callback' : callback_args -> E')
      nb ns nk nb' ns' nk' b k,
    0 <= nb -> 0 <= ns -> 0 <= nk -> 0 <= nb' -> 0 <= ns' -> 0 <= nk' ->
    let '(final, _, trace, _) := run_mcmc nb ns nk callback b k in
    let '(final', _, trace', _) := run_mcmc nb' ns' nk' callback' b k in
    (nb + ns * nk = nb' + ns' * nk' -> final = final') /\
    (forall j j' field, In field documented_main ->
       0 <= j < ns -> 0 <= j' < ns' -> nb + (j + 1) * nk = nb' + (j' + 1) * nk' ->
       exists vs vs' v, lookup trace field = Some vs /\ lookup trace' field = Some vs' /\
         nth_error vs (Z.to_nat j) = Some v /\ nth_error vs' (Z.to_nat j') = Some v).
  Proof.
    intros E E' callback callback' nb ns nk nb' ns' nk' b k Hb Hs Hk Hb' Hs' Hk'.
    pose proof (C31_schedule E callback nb ns nk b k Hb Hs Hk) as H1.
    pose proof (C31_schedule E' callback' nb' ns' nk' b k Hb' Hs' Hk') as H2.
    destruct (run_mcmc nb ns nk callback b k) as [[[f1 t1] m1] l1].
    destruct (run_mcmc nb' ns' nk' callback' b k) as [[[f2 t2] m2] l2].
    destruct H1 as (-> & _ & T1), H2 as (-> & _ & T2). split; [now intros -> |].
    intros j j' field Hf Hj Hj' Ej.
    destruct (T1 field (or_introl Hf)) as (vs & L & V).
    destruct (T2 field (or_introl Hf)) as (vs' & L' & V').
    exists vs, vs'.
    assert (A : forall nb ns nk j vs, 0 <= nb -> 0 <= nk -> 0 <= j < ns ->
      map Some vs = map (fun b0 : bart => lookup (state_items b0) field)
        (map (fun j0 => chain b k (Z.to_nat nb + (j0 + 1) * Z.to_nat nk)) (seq 0 (Z.to_nat ns))) ->
      nth_error vs (Z.to_nat j) =
        lookup (state_items (chain b k (Z.to_nat (nb + (j + 1) * nk)))) field).
    { clear. intros nb ns nk j vs Hb Hk Hj V.
      assert (H : nth_error (map Some vs) (Z.to_nat j) =
        Some (lookup (state_items (chain b k (Z.to_nat (nb + (j + 1) * nk)))) field)).
      { rewrite V, map_map. rewrite nth_error_map.
        rewrite nth_error_nth' with (d := 0%nat) by (rewrite seq_length; lia).
        rewrite seq_nth by lia. cbn [option_map Nat.add]. do 4 f_equal.
        rewrite Z2Nat.inj_add, Z2Nat.inj_mul, Z2Nat.inj_add by nia. reflexivity. }
      rewrite nth_error_map in H. destruct (nth_error vs (Z.to_nat j)); cbn [option_map] in H; congruence. }
    pose proof (A _ _ _ j _ Hb Hk Hj V) as N1. pose proof (A _ _ _ j' _ Hb' Hk' Hj' V') as N2.
    rewrite <- Ej in N2.
    assert (Hn : lookup (state_items (chain b k (Z.to_nat (nb + (j + 1) * nk)))) field <> None).
    { rewrite lookup_in, keys_state. apply in_or_app. left. cbn in Hf |- *. tauto. }
    destruct (lookup (state_items (chain b k (Z.to_nat (nb + (j + 1) * nk)))) field) as [v |];
      [| congruence].
    exists v. auto.
  Qed.

  (** C33. The successive calls of the callback: one per iteration, with the
      state after that iteration and the documented indices. *)
  Theorem C33_callbacks : forall E (callback : callback_args -> E) nb ns nk b k,
    0 <= nb -> 0 <= ns -> 0 <= nk ->
    let '(_, _, _, calls) := run_mcmc nb ns nk callback b k in
    zlen calls = nb + ns * nk /\
    forall i, 0 <= i < nb + ns * nk ->
      nth_error calls (Z.to_nat i) = Some (callback {|
        cb_bart := chain b k (Z.to_nat i + 1);
        cb_burnin := i <? nb;
        cb_i_total := i;
        cb_i_skip := if i <? nb then i else (i - nb) mod nk;
        cb_n_burn := nb; cb_n_save := ns; cb_n_skip := nk |}).
  Proof.
    intros E callback nb ns nk b k Hb Hs Hk.
    destruct (run_value nb ns nk Hb Hs Hk callback b k) as (bt & mt & -> & _ & _).
    split.
    - unfold zlen. rewrite map_length, seq_length. lia.
    - intros i Hi. rewrite nth_error_map.
      rewrite nth_error_nth' with (d := 0%nat) by (rewrite seq_length; lia).
      rewrite seq_nth by lia. cbn [option_map Nat.add]. unfold expected_call.
      rewrite Z2Nat.id by lia. now rewrite Nat.add_1_r.
  Qed.

  (** C40. With at least one iteration in each phase the traces have exactly
      the documented keys, plus 'ratios' if it was saved. *)
  Theorem C40_trace_fields_partial : forall E (callback : callback_args -> E) nb ns nk b k,
    0 < nb -> 0 < ns -> 0 <= nk ->
    let '(_, burnin_trace, main_trace, _) := run_mcmc nb ns nk callback b k in
    (forall field, In field (keys burnin_trace) <->
       In field documented_burnin \/ (field = "ratios"%string /\ ratios b <> None)) /\
    (forall field, In field (keys main_trace) <->
       In field documented_main \/ (field = "ratios"%string /\ ratios b <> None)).
  Proof.
    intros E callback nb ns nk b k Hb Hs Hk.
    destruct (run_value nb ns nk ltac:(lia) ltac:(lia) Hk callback b k) as (bt & mt & -> & -> & ->).
    destruct (Z.ltb_spec 0 nb); [| lia]. destruct (Z.ltb_spec 0 ns); [| lia].
    rewrite !stack_keys, keys_state.
    2: { unfold main_states. destruct (Z.to_nat ns) eqn:En; [lia | discriminate]. }
    2: { unfold burnin_states. destruct (Z.to_nat nb) eqn:En; [lia | discriminate]. }
    destruct (ratios b); cbn; split; intros field; intuition (try congruence; auto 20).
  Qed.

  (** With no burn-in, or no saved samples, the traces have all the fields of
      the state. *)
  Theorem C40_trace_fields_refuted : forall E (callback : callback_args -> E) ns nk b k,
    0 <= ns -> 0 <= nk ->
    (let '(_, burnin_trace, _, _) := run_mcmc 0 ns nk callback b k in
     In "X"%string (keys burnin_trace)) /\
    (let '(_, _, main_trace, _) := run_mcmc ns 0 nk callback b k in
     In "resid"%string (keys main_trace)).
  Proof.
    intros E callback ns nk b k Hs Hk.
    destruct (run_value 0 ns nk ltac:(lia) Hs Hk callback b k) as (bt & mt & -> & -> & ->).
    destruct (run_value ns 0 nk Hs ltac:(lia) Hk callback b k) as (bt & mt & -> & -> & ->).
    cbn [Z.ltb Z.compare]. unfold empty_trace, keys. rewrite !map_map. cbn [fst].
    change (fun x : string * value => fst x) with (@fst string value).
    fold (keys (state_items b)). fold (keys (state_items (chain b k (Z.to_nat ns)))).
    rewrite !keys_state. split; apply in_or_app; left; cbn; tauto.
  Qed.
End Props.

Print Assumptions C31_schedule.
Print Assumptions C32_sequential_guarantee.
Print Assumptions C33_callbacks.
Print Assumptions C40_trace_fields_partial.
Print Assumptions C40_trace_fields_refuted.
