(** Which maximum depths work: C41. *)
From Coq Require Import ZArith List Bool Lia.
From Verif Require Import Base LemBase ModelJaxext ModelGrove ModelStep SpecTree SpecRun Laws
  ProofTree ProofMoves ProofRun SpecLoop Examples ExampleRun.
Import ListNotations.
Open Scope Z_scope.

Section Props.
  Context {fo : fops} {zo : zoob} {foo : foob fo} {fl : flaws fo}.

  (** C41, the part that holds: with maximum depth at least 2 and at least one
      tree, a step never raises, in all states that can be reached.  Missing:
      depth 1, which is documented to be allowed (see
      [C41_all_depths_refuted]). *)
  Theorem C41_depths_partial : forall s b (g : rng fo) k, settings_ok s -> reached s b ->
    2 <= depth_of s -> 1 <= i_num_trees s ->
    step_checked b k = Some (step b k).
  Proof.
    intros s b g k OK R Hd Ht.
    destruct (reached_fields s b R) as (_ & _ & _ & _ & ED & _ & _ & EN & _ & _ & _ & ER & EC).
    unfold step_checked, step_traces. change (zlen (p_nonterminal b)) with (bd b).
    rewrite EN, ED, ER, EC. unfold init_of, init. cbn [trees]. rewrite zlen_full by lia.
    rewrite (proj2 (Z.leb_le 0 _)) by lia.
    rewrite (proj2 (Z.eqb_neq _ 0)) by lia. cbn [negb andb].
    pose proof (ok_rbs _ OK) as H1. pose proof (ok_cbs _ OK) as H2.
    destruct (i_resid_batch s) as [r |]; [specialize (H1 r eq_refl); destruct r; try lia |];
    (destruct (i_count_batch s) as [c |]; [specialize (H2 c eq_refl); destruct c; try lia |]); reflexivity.
  Qed.

  (** C41 is false as documented: with maximum depth 1 (p_nonterminal empty,
      trees made of the root only) the first step raises, whatever the other
      arguments, so no sample can be drawn. *)
  Theorem C41_all_depths_refuted : forall s (g : rng fo) k,
    depth_of s = 1 -> step_checked (init_of s) k = None.
  Proof.
    intros s g k H. unfold step_checked, step_traces, init_of, init. cbn [p_nonterminal].
    unfold depth_of in H. rewrite zlen_app, zlen_cons, zlen_nil.
    replace (zlen (i_p_nonterminal s)) with 0 by lia. reflexivity.
  Qed.
End Props.

(** Both cases exist: the example settings have depth 4, and without
    p_nonterminal depth 1. *)
Example depth_example :
  settings_ok ex_settings /\ 2 <= depth_of ex_settings /\ 1 <= i_num_trees ex_settings /\
  depth_of (mksettings (i_X ex_settings) (i_y ex_settings) [3; 2] 8 3 [] (i_sigma2_alpha ex_settings)
    (i_sigma2_beta ex_settings) None None None false) = 1.
Proof. split; [apply ex_settings_ok |]. repeat split; vm_compute; discriminate. Qed.

Print Assumptions C41_depths_partial.
Print Assumptions C41_all_depths_refuted.
