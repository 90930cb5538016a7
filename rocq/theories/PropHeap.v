(** The MCMC step and its input: C35. *)
From Coq Require Import String ZArith List Bool Lia.
From Verif Require Import Base LemBase ModelStep ModelHeap SpecHeap SpecRun ProofHeap Laws Examples ExampleRun.
Import ListNotations.

Section PropHeap.
  Context {fo : fops} {zo : zoob} {foo : foob fo}.

  (** The dictionaries made by [init] represent the state. *)
  Theorem C35_init : forall h b,
    exists a h', init_heap b h = Some (a, h') /\ represents h' a b /\ unchanged h h'.
  Proof. exact init_run. Qed.
  Print Assumptions C35_init.

  (** C35. If the ratios are not saved, [step] makes a new dictionary with the
      new state, and changes no existing dictionary. *)
  Theorem C35_step : forall {g : rng fo} h a b k,
    represents h a b -> ratios b = None ->
    exists a' h', step_heap a k h = Some (a', h') /\ represents h' a' (step b k) /\
      new_in h a' /\ unchanged h h'.
  Proof.
    intros g h a b k (o & r & Ha & Ho & Hr) N. fold (rat_ok h b r) in Hr.
    destruct (step_summary h a b o r k Ha Ho Hr) as (a' & h' & E & Ha' & Ho' & Hr' & F & L & _).
    exists a', h'. split; [exact E |]. split; [now exists o, r |]. split; [now apply nth_error_None |].
    intros x d H. apply F; [| exact H]. unfold rat_ok in Hr. rewrite N in Hr. destruct r; [destruct Hr | discriminate].
  Qed.
  Print Assumptions C35_step.

  (** C35. The same over several steps: all the states obtained on the way stay
      as they were. *)
  Theorem C35_steps : forall {g : rng fo} h a b ks,
    represents h a b -> ratios b = None ->
    exists l h', steps_heap a ks h = Some (l, h') /\ unchanged h h' /\
      Forall2 (represents h') l (states b ks).
  Proof.
    intros g h a b ks (o & r & Ha & Ho & Hr) N. fold (rat_ok h b r) in Hr.
    destruct (steps_summary o r ks h a b Ha Ho Hr) as (l & h' & E & F & Hr' & FA).
    assert (r = None) as -> by (unfold rat_ok in Hr; rewrite N in Hr; destruct r; [destruct Hr | reflexivity]).
    exists l, h'. split; [exact E |]. split; [intros x d H; now apply F |].
    assert (NS : Forall (fun b => ratios b = None) (states b ks)).
    { clear -N. revert b N. induction ks as [| k ks IH]; intros b N; cbn [states]; [repeat constructor; exact N |].
      constructor; [exact N |]. apply IH. unfold step, sample_sigma, sample_trees, accept_moves_and_sample_leaves.
      destruct (sequential_stage _ _ _ _ _) as [rr aa]. cbn [set_sigma2 ratios]. now rewrite N. }
    clear -FA NS. induction FA as [| x c l cs [H1 H2] FA IH]; [constructor |]. inversion NS; subst. constructor.
    - exists o, None. split; [exact H1 |]. split; [exact H2 |]. now rewrite H3.
    - now apply IH.
  Qed.
  Print Assumptions C35_steps.

  (** C35. If the ratios are saved, the only existing dictionary that changes is
      the one with the ratios inside the input, which is also the one inside
      the output: the input ends up with the new ratios. *)
  Theorem C35_saved_ratios : forall {g : rng fo} h a b k d r,
    represents h a b -> nth_error h a = Some d -> dget d "ratios" = Some (VRef r) ->
    exists a' h', step_heap a k h = Some (a', h') /\ represents h' a' (step b k) /\ new_in h a' /\
      (forall x e, x <> r -> nth_error h x = Some e -> nth_error h' x = Some e) /\
      represents h' a (set_ratios b (ratios (step b k))).
  Proof.
    intros g h a b k d r (o & r0 & Ha & Ho & Hr) Hd HR. fold (rat_ok h b r0) in Hr.
    assert (r0 = Some r) as ->.
    { rewrite Ha in Hd. injection Hd as <-. destruct r0; [| discriminate HR].
      change (dget (bart_dict b o (Some a0)) "ratios") with (Some (@VRef fo a0)) in HR. congruence. }
    destruct (step_summary h a b o (Some r) k Ha Ho Hr) as (a' & h' & E & Ha' & Ho' & Hr' & F & L & _).
    destruct (rat_other h b a o (Some r) r Hr Ha Ho eq_refl) as (N1 & N2 & _).
    exists a', h'. split; [exact E |]. split; [now exists o, (Some r) |]. split; [now apply nth_error_None |].
    split; [intros x e NX H; apply F; [congruence | exact H] |].
    exists o, (Some r). split; [| split].
    - rewrite bart_dict_ratios. apply F; [congruence | exact Ha].
    - apply F; [congruence | exact Ho].
    - exact Hr'.
  Qed.
  Print Assumptions C35_saved_ratios.

  (** C35, over several steps with saved ratios: all the states kept by the
      user end up with the ratios of the last one. *)
  Theorem C35_saved_ratios_steps : forall {g : rng fo} h a b ks,
    represents h a b ->
    exists l h', steps_heap a ks h = Some (l, h') /\
      Forall2 (fun a c => represents h' a (set_ratios c (ratios (fold_left step ks b)))) l (states b ks).
  Proof.
    intros g h a b ks (o & r & Ha & Ho & Hr). fold (rat_ok h b r) in Hr.
    destruct (steps_summary o r ks h a b Ha Ho Hr) as (l & h' & E & F & Hr' & FA).
    exists l, h'. split; [exact E |]. clear E. induction FA as [| x c l cs [H1 H2] FA IH]; constructor; [| exact IH].
    exists o, r. split; [exact H1 |]. split; [exact H2 |]. exact Hr'.
  Qed.
  Print Assumptions C35_saved_ratios_steps.

  (** C35. When [step] is called under jit or in a scan, as [run_mcmc] does, no
      existing dictionary changes, with or without saved ratios. *)
  Theorem C35_traced : forall {g : rng fo} h a b k, represents h a b ->
    exists a' h', traced_call (fun a => step_heap a k) a h = Some (a', h') /\ represents h' a' (step b k) /\
      new_in h a' /\ unchanged h h'.
  Proof.
    intros g h a b k H. destruct (traced_run h a b k H) as (a' & h' & H1 & H2 & H3 & H4). eauto 6.
  Qed.
  Print Assumptions C35_traced.

  (** C35. Hence, if the ratios are saved, the input changes whenever the
      ratios do. *)
  Theorem C35_input_changes : forall {g : rng fo} h a b k,
    represents h a b -> ratios b <> None -> ratios (step b k) <> ratios b ->
    exists a' h', step_heap a k h = Some (a', h') /\ ~ represents h' a b /\ ~ unchanged h h'.
  Proof.
    intros g h a b k R NN NE. pose proof R as (o & r & Ha & Ho & Hr).
    destruct (ratios b) as [q |] eqn:EQ; [| congruence]. destruct r as [x |]; [| destruct Hr].
    destruct (C35_saved_ratios h a b k _ x R Ha eq_refl) as (a' & h' & E & _ & _ & _ & R').
    assert (NR : ~ represents h' a b).
    { intros Q. apply NE. pose proof (represents_ratios _ _ _ _ Q R') as EE.
      change (ratios (set_ratios b (ratios (step b k)))) with (ratios (step b k)) in EE. congruence. }
    exists a', h'. split; [exact E |]. split; [exact NR |].
    intros U. apply NR. exists o, (Some x). split; [now apply U |]. split; [now apply U |].
    rewrite EQ. now apply U.
  Qed.
  Print Assumptions C35_input_changes.

  (** [ratios b = None] in all the states reached without asking to save the ratios. *)
  Theorem C35_reached : forall s b, reached s b -> (ratios b = None <-> i_save_ratios s = false).
  Proof.
    intros s b R. induction R as [| b g k L R IH].
    - unfold init_of, init. cbn [ratios]. destruct (i_save_ratios s); split; congruence.
    - rewrite <- IH. unfold step, sample_sigma, sample_trees, accept_moves_and_sample_leaves.
      destruct (sequential_stage _ _ _ _ _) as [rr aa]. cbn [set_sigma2 ratios].
      destruct (ratios b); split; congruence.
  Qed.
  Print Assumptions C35_reached.
End PropHeap.

(** C35 is false if the ratios are saved: for a reached state, the input of
    [step] is changed. *)
Theorem C35_refuted : exists (b : @bart xops) h a k a' h',
  settings_ok ex_settings /\ @reached xops zclip xclip ex_settings b /\
  represents h a b /\ @step_heap xops zclip xclip xrng a k h = Some (a', h') /\
  ~ represents h' a b /\ ~ unchanged h h'.
Proof.
  assert (Q : ratios (ex_run 1) <> None) by (vm_compute; discriminate).
  assert (NQ : ratios (@step xops zclip xclip xrng (ex_run 1) (KRoot 1)) <> ratios (ex_run 1)) by (vm_compute; discriminate).
  pose proof (ex_reached 1) as RE. revert Q NQ RE. generalize (ex_run 1). intros b Q NQ RE.
  destruct (init_run [] b) as (a & h & _ & R & _).
  destruct (@C35_input_changes xops zclip xclip xrng h a b (KRoot 1) R Q NQ) as (a' & h' & E & N1 & N2).
  exists b, h, a, (KRoot 1), a', h'. split; [exact ex_settings_ok |].
  split; [exact RE |]. split; [exact R |]. split; [exact E |]. now split.
Qed.
Print Assumptions C35_refuted.

(** A state without saved ratios, and its dictionaries *)
Example C35_example : exists h a,
  represents h a (set_ratios (ex_run 3) None) /\ ratios (set_ratios (ex_run 3) None) = None /\
  length (trees (ex_run 3)) = 3%nat.
Proof.
  assert (L : length (trees (ex_run 3)) = 3%nat) by (vm_compute; reflexivity).
  revert L. generalize (ex_run 3). intros b L.
  destruct (init_run [] (set_ratios b None)) as (a & h & _ & R & _).
  exists h, a. split; [exact R |]. split; [reflexivity | exact L].
Qed.
