(** Residuals without exact arithmetic (C07). *)
From Coq Require Import ZArith List Bool Lia Reals Lra.
From Flocq Require Import Core Relative Plus_error BinarySingleNaN.
From Verif Require Import Base LemBase ModelJaxext ModelGrove ModelStep SpecTree SpecForest SpecRange SpecRun SpecDrift
  Laws Laws32 ProofTree ProofCategorical ProofRange ProofAggregate ProofRoute ProofMoves ProofStep ProofRun ProofForest
  ProofLeaf ProofDraw PropForest PropFloat32 PropLinspace Examples.
Import ListNotations.
Open Scope Z_scope.

Section Any.
  Context {fo : fops} {zo : zoob} {foo : foob fo} {FL : flaws fo}.

  Definition cached (t : tree) (j : Z) : F := zget f0 (t_leaf t) (zget 0 (t_idx t) j).

  Lemma cached_value : forall b t j, setup_ok b -> tree_inv b t -> 0 <= j < zlen (X b) ->
    cached t j = value_of (bd b) t (gather zmode (zget [] (X b) j)).
  Proof.
    intros b t j SO TI Hj. unfold cached, value_of. rewrite (ti_idx _ _ TI).
    rewrite (zget_map _ _ _ []) by auto. pose proof (so_d _ SO) as Hd.
    set (x := zget [] (X b) j).
    rewrite <- (eval_tree (foo := foo) (bd b) (t_leaf t, t_var t, t_split t) x).
    - cbn [fst snd]. symmetry. apply gather_in.
      pose proof (traverse_bounds (bd b) x (t_var t) (t_split t) ltac:(lia) (ti_var _ _ TI) (ti_split _ _ TI)).
      pose proof (ti_leaf _ _ TI). lia.
    - lia.
    - repeat split; apply TI.
  Qed.

  Section OneStep.
    Context {g : rng fo} {rl : rlaws g}.
    Variables (b : bart) (km ka : key).
    Hypothesis SO : setup_ok b.

    Lemma seq_updates : forall l r r',
      (forall ita, In ita l -> tree_inv b (snd (fst ita))) ->
      sequential_stage (resid_batch_size b) (min_points_per_leaf b) (ef_of b) r
        (map (fun ita => stage_of b km ka (fst ita)) l) = (r', map snd l) ->
      zlen r = zlen (X b) ->
      zlen r' = zlen (X b) /\
      forall j, 0 <= j < zlen (X b) ->
        zget f0 r' j = fold_left (fun v ita => fadd v (fsub (cached (snd (fst ita)) j) (cached (new_tree b km ka ita) j)))
                         l (zget f0 r j).
    Proof.
      induction l as [| [it a] l IH]; intros r r' TI E Hr; cbn [map sequential_stage] in E.
      - injection E as <-. split; auto.
      - destruct (accept_move_and_sample_leaves _ _ _ r _) as [r1 a'] eqn:Ea.
        destruct (sequential_stage _ _ _ r1 _) as [r2 rest] eqn:Es.
        injection E as <- Ha Hrest. cbn [fst snd] in Ha, Ea. subst a' rest.
        assert (T : tree_inv b (snd it)) by (apply (TI (it, a)); now left).
        destruct (move_of_cases b km it SO T) as (H1 & H2 & H3 & H4 & _).
        destruct (acc_lens b SO (snd it) T (move_of b km it) H1 H2 H3 H4 ka (fst it) g r r1 a _ Ea)
          as [_ L].
        destruct (IH r1 r2) as [L2 H].
        { intros; apply TI; now right. }
        { exact Es. }
        { lia. }
        split; auto. intros j Hj. rewrite H by auto. cbn [fold_left]. f_equal.
        exact (resid_update b SO (snd it) T (move_of b km it) H1 H2 H3 H4 ka (fst it) g r r1 a _ Ea j Hj Hr).
    Qed.
  End OneStep.

  Lemma fold_left_combine_map A B C (f : C -> A * A -> C) (p q : B -> A) l c :
    fold_left f (combine (map p l) (map q l)) c = fold_left (fun c x => f c (p x, q x)) l c.
  Proof. revert c. induction l; intros c; cbn; auto. Qed.
  Lemma fold_left_ext_in' A C (f h : C -> A -> C) l c : (forall c x, In x l -> f c x = h c x) ->
    fold_left f l c = fold_left h l c.
  Proof. revert c. induction l as [| a l IH]; intros c H; cbn; auto. rewrite (H c a) by now left. apply IH. intros; apply H; now right. Qed.

  (** C07. In any arithmetic, a step changes the residual at each point only by
      adding, for each tree in order, the value of the tree before the step minus
      its value after the step. *)
  Theorem C07_updates : forall s b (g : rng fo) k j x r, settings_ok s -> reached s b -> rlaws g ->
    nth_error (points_of s) j = Some x -> nth_error (resid b) j = Some r ->
    nth_error (resid (step b k)) j =
      Some (residual_after (depth_of s) (trees b) (trees (step b k)) x r).
  Proof.
    intros s b g k j x r OK R rl Hx Hr. pose proof (reached_inv s OK b R) as I.
    pose proof (reached_inv s OK _ (reached_step s b g k rl R)) as I'.
    destruct (reached_fields s b R) as (EX & _ & _ & _ & ED & _).
    destruct (reached_fields s _ (reached_step s b g k rl R)) as (EX' & _ & _ & _ & ED' & _).
    destruct (step_fields b k) as (_ & _ & _ & _ & _ & _ & _ & _ & _ & _ & _ & ET & ER & _).
    destruct (sample_trees_list b (KSplit k 2 1)) as (l & M & A & SQ & T & _). cbv zeta in *.
    assert (LR : zlen (resid b) = zlen (X b)) by apply I.
    destruct (seq_updates b (KSplit (KSplit k 2 1) 2 1) (KSplit (KSplit k 2 1) 2 0) (in_setup _ I) l (resid b)
      (resid (sample_trees b (KSplit k 2 1)))) as [L H].
    { intros [it a] Hin. cbn [fst]. apply (in_trees _ I). eapply In_fst_enum; eauto. }
    { symmetry. exact SQ. }
    { exact LR. }
    assert (Hj : 0 <= Z.of_nat j < zlen (X b)).
    { rewrite <- LR. unfold zlen. split; [lia |]. apply Nat2Z.inj_lt. apply nth_error_Some. congruence. }
    assert (EXj : x = gather zmode (zget [] (X b) (Z.of_nat j))).
    { unfold points_of in Hx. rewrite nth_error_map in Hx. destruct (nth_error (i_X s) j) as [row |] eqn:E; [| discriminate].
      injection Hx as <-. f_equal. rewrite EX. unfold zget. rewrite Nat2Z.id. symmetry. now apply nth_error_nth. }
    rewrite ER. rewrite (nth_error_nth' _ f0) by (unfold zlen in L, Hj; lia). f_equal.
    specialize (H (Z.of_nat j) Hj). unfold zget in H. rewrite Nat2Z.id in H.
    rewrite H, (nth_error_nth _ _ _ Hr). unfold residual_after. rewrite ET, T.
    assert (MF : map (fun ita => snd (fst ita)) l = trees b).
    { rewrite <- (map_snd_enumerate _ (trees b)), <- M. now rewrite map_map. }
    rewrite <- MF at 1. rewrite fold_left_combine_map. apply fold_left_ext_in'. intros c ita Hin. cbn [fst snd].
    f_equal. f_equal.
    - rewrite EXj, <- ED. apply cached_value; [apply I | | exact Hj]. apply (in_trees _ I). rewrite <- MF.
      apply in_map_iff. exists ita. auto.
    - rewrite EXj, <- ED. rewrite ED, <- ED', EX, <- EX'. apply cached_value; [apply I' | | rewrite EX', <- EX; exact Hj].
      apply (in_trees _ I'). rewrite ET, T. apply in_map. exact Hin.
  Qed.
End Any.
Print Assumptions C07_updates.

(** ** Single precision *)
Section Single.
  Context (log log1p : b32 -> b32) (bits : key -> Z -> Z) (normal : key -> Z -> b32) (gamma : key -> b32 -> b32).
  Let ops := ops32 log log1p.
  Context {zo : zoob} {foo : foob ops}.
  Local Notation run := (run32 log log1p bits normal gamma).
  Local Notation value d t x := (@value_of ops d t x : b32).

  Lemma u_ro_24 : u_ro radix2 24 = u32.
  Proof. unfold u_ro, u32. rewrite bpow_plus. change (bpow radix2 1) with 2%R. change (- (24))%Z with (-24)%Z. field. Qed.

  (** a finite sum: error relative to the result *)
  Lemma add_error (x z : b32) : is_finite x = true -> is_finite z = true -> is_finite (b32_add x z) = true ->
    (Rabs (B2R (b32_add x z) - (B2R x + B2R z)) <= u32 * Rabs (B2R (b32_add x z)))%R.
  Proof.
    intros Fx Fz F. pose proof (Bplus_correct 24 128 _ _ mode_NE x z Fx Fz) as C.
    destruct (Rlt_bool _ _) in C.
    - destruct C as (C & _). unfold b32_add. rewrite C.
      destruct (FLT_plus_error_N_round_ex radix2 (-149) 24 (fun x => negb (Z.even x)) (B2R x) (B2R z)) as (e & He & E).
      { apply (generic_format_B2R 24 128 x). } { apply (generic_format_B2R 24 128 z). }
      rewrite u_ro_24 in He.
      change (round radix2 (SpecFloat.fexp 24 128) (round_mode mode_NE) (B2R x + B2R z)) with
        (round radix2 (FLT_exp (-149) 24) (Znearest (fun x => negb (Z.even x))) (B2R x + B2R z)).
      set (f := round radix2 _ _ _) in *. rewrite E.
      replace (f - f * (1 + e))%R with (- (f * e))%R by ring. rewrite Rabs_Ropp, Rabs_mult, Rmult_comm.
      apply Rmult_le_compat_r; [apply Rabs_pos | exact He].
    - exfalso. destruct C as [C _]. unfold b32_add in F. rewrite <- is_finite_SF_B2SF, C in F. discriminate F.
  Qed.
  (** a finite difference: error relative to the operands *)
  Lemma sub_error (x z : b32) : is_finite x = true -> is_finite z = true -> is_finite (Bminus mode_NE x z) = true ->
    (Rabs (B2R (Bminus mode_NE x z) - (B2R x - B2R z)) <= u32 * Rabs (B2R x - B2R z))%R.
  Proof.
    intros Fx Fz F. pose proof (Bminus_correct 24 128 _ _ mode_NE x z Fx Fz) as C.
    destruct (Rlt_bool _ _) in C.
    - destruct C as (C & _). rewrite C.
      destruct (FLT_plus_error_N_ex radix2 (-149) 24 (fun x => negb (Z.even x)) (B2R x) (- B2R z)) as (e & He & E).
      { apply (generic_format_B2R 24 128 x). } { apply generic_format_opp. apply (generic_format_B2R 24 128 z). }
      assert (He' : (Rabs e <= u32)%R).
      { rewrite <- u_ro_24. eapply Rle_trans; [exact He | apply u_rod1pu_ro_le_u_ro]. }
      change (round radix2 (SpecFloat.fexp 24 128) (round_mode mode_NE) (B2R x - B2R z)) with
        (round radix2 (FLT_exp (-149) 24) (Znearest (fun x => negb (Z.even x))) (B2R x + - B2R z)).
      rewrite E. replace ((B2R x + - B2R z) * (1 + e) - (B2R x - B2R z))%R with (e * (B2R x - B2R z))%R by ring.
      rewrite Rabs_mult. apply Rmult_le_compat_r; [apply Rabs_pos | exact He'].
    - exfalso. destruct C as [C _]. rewrite <- is_finite_SF_B2SF, C in F. discriminate F.
  Qed.
  Lemma add_finite (x z : b32) : is_finite (b32_add x z) = true -> is_finite z = true.
  Proof. destruct x as [[|] | [|] | | [|] m e H], z as [[|] | [|] | | [|] m' e' H']; cbn; auto. Qed.

  Definition gap (d : Z) (old new : list (@tree ops)) (x : Z -> Z) : R :=
    fold_right Rplus 0%R (map (fun on => B2R (value d (fst on) x) - B2R (value d (snd on) x))%R (combine old new)).

  Lemma updates_error B d x : forall old new r, length old = length new ->
    (forall t, In t (old ++ new) -> within B (value d t x)) ->
    (forall m, within B (residual_after (fo := ops) d (firstn m old) (firstn m new) x r)) ->
    (Rabs (B2R (residual_after (fo := ops) d old new x r : b32) - (B2R r + gap d old new x)) <=
      IZR (zlen old) * (3 * u32 * B))%R.
  Proof.
    induction old as [| t old IH]; intros [| t' new] r L V P; try discriminate.
    - unfold gap, residual_after. cbn. replace (B2R r - (B2R r + 0))%R with 0%R by ring. rewrite Rabs_R0.
      change (zlen (@nil (@tree ops))) with 0. rewrite Rmult_0_l. apply Rle_refl.
    - cbn [length] in L.
      set (r1 := b32_add r (Bminus mode_NE (value d t x) (value d t' x))).
      pose proof (P 1%nat) as P1.
      change (residual_after (fo := ops) d (firstn 1 (t :: old)) (firstn 1 (t' :: new)) x r) with r1 in P1.
      pose proof (P 0%nat) as [F0 _].
      change (residual_after (fo := ops) d (firstn 0 (t :: old)) (firstn 0 (t' :: new)) x r) with r in F0.
      destruct P1 as [F1 B1].
      destruct (V t) as [Ft Bt]; [now left |]. destruct (V t') as [Ft' Bt'].
      { apply in_or_app. right. now left. }
      specialize (IH new r1 ltac:(lia)).
      assert (I : (Rabs (B2R (residual_after (fo := ops) d old new x r1 : b32) - (B2R r1 + gap d old new x)) <=
                    IZR (zlen old) * (3 * u32 * B))%R).
      { apply IH.
        - intros u Hu. apply V. apply in_app_or in Hu as [Hu | Hu]; [right; apply in_or_app; now left |].
          right. apply in_or_app. right. now right.
        - intros m. exact (P (S m)). }
      assert (FD : is_finite (Bminus mode_NE (value d t x) (value d t' x)) = true) by (apply (add_finite r); exact F1).
      pose proof (add_error r _ F0 FD F1) as E1. fold r1 in E1.
      pose proof (sub_error _ _ Ft Ft' FD) as E2.
      set (D := B2R (Bminus mode_NE (value d t x) (value d t' x))) in *.
      change (residual_after (fo := ops) d (t :: old) (t' :: new) x r) with (residual_after (fo := ops) d old new x r1).
      assert (G : gap d (t :: old) (t' :: new) x = (B2R (value d t x) - B2R (value d t' x) + gap d old new x)%R) by reflexivity.
      rewrite G. rewrite zlen_cons, plus_IZR.
      assert (U : (0 < u32)%R) by apply bpow_gt_0.
      assert (E1' : (Rabs (B2R r1 - (B2R r + D)) <= u32 * B)%R).
      { eapply Rle_trans; [exact E1 |]. apply Rmult_le_compat_l; lra. }
      assert (E2' : (Rabs (D - (B2R (value d t x) - B2R (value d t' x))) <= u32 * (2 * B))%R).
      { eapply Rle_trans; [exact E2 |]. apply Rmult_le_compat_l; [lra |].
        eapply Rle_trans; [apply Rabs_triang |]. rewrite Rabs_Ropp. lra. }
      clear -I E1' E2'. set (q := B2R (residual_after (fo := ops) d old new x r1 : b32)) in *.
      apply Rabs_le_inv in I, E1', E2'. apply Rabs_le. lra.
  Qed.

  Lemma gap_sums d x : forall old new, length old = length new ->
    gap d old new x = (fold_right Rplus 0%R (map (fun t => B2R (value d t x)) old) -
                       fold_right Rplus 0%R (map (fun t => B2R (value d t x)) new))%R.
  Proof.
    induction old as [| t old IH]; intros [| t' new] L; try discriminate; [unfold gap; cbn; ring |].
    injection L as L. specialize (IH new L). unfold gap in *. cbn [combine map fold_right fst snd]. rewrite IH. ring.
  Qed.

  Lemma one_more_step (r0 q y0 S1 S2 n nt B : R) :
    (Rabs (r0 - (y0 - S1)) <= 3 * n * nt * B / 2 ^ 24)%R ->
    (Rabs (q - (r0 + (S1 - S2))) <= nt * (3 * / 2 ^ 24 * B))%R ->
    (Rabs (q - (y0 - S2)) <= 3 * (n + 1) * nt * B / 2 ^ 24)%R.
  Proof.
    unfold Rdiv. set (v := (/ 2 ^ 24)%R). clearbody v. intros H1 H2. apply Rabs_le_inv in H1, H2. apply Rabs_le.
    replace (3 * (n + 1) * nt * B * v)%R with (3 * n * nt * B * v + nt * (3 * v * B))%R by ring. lra.
  Qed.

  (** C07. In single precision, after n steps, the residual at each point differs
      from the response minus the exact sum of the values of the trees by at most
      3 n ntree B / 2^24, if no value or residual exceeded B on the way. *)
  Theorem C07_float32_drift : forall (s : @settings ops) ks j x yv B, settings_ok s ->
    nth_error (points_of s) j = Some x -> nth_error (i_y s) j = Some yv ->
    (forall ks1 k ks2 r, ks = ks1 ++ k :: ks2 -> nth_error (resid (run s ks1)) j = Some r ->
       step_within B (depth_of s) (run s ks1) (run s (ks1 ++ [k])) x r) ->
    exists r, nth_error (resid (run s ks)) j = Some r /\
      (Rabs (B2R (r : b32) - true_residual (depth_of s) (run s ks) x yv) <=
        3 * IZR (zlen ks) * IZR (zlen (trees (run s ks))) * B / 2 ^ 24)%R.
  Proof.
    intros s ks j x yv B OK Hx Hy.
    rewrite <- (rev_involutive ks). induction (rev ks) as [| k l IH]; cbn [rev]; intros H.
    - exists yv. split; [exact Hy |]. unfold zlen at 1. cbn [length Z.of_nat].
      assert (Z0 : fold_right Rplus 0%R (map (fun t : @tree ops => B2R (value (depth_of s) t x)) (trees (run s []))) = 0%R).
      { assert (VZ : forall t, In t (trees (run s [])) -> value (depth_of s) t x = b32_0).
        { intros t Ht. pose proof (reached_inv s OK _ (reached_init s)) as I.
          destruct (reached_fields s _ (reached_init s)) as (EX & _ & _ & _ & ED & _).
          assert (Hj : 0 <= Z.of_nat j < zlen (X (init_of s))).
          { rewrite EX. unfold zlen. split; [lia |]. apply Nat2Z.inj_lt. rewrite <- (map_length (gather zmode) (i_X s)).
            apply nth_error_Some. unfold points_of in Hx. rewrite Hx. discriminate. }
          assert (EXj : x = gather zmode (zget [] (X (init_of s)) (Z.of_nat j))).
          { unfold points_of in Hx. rewrite nth_error_map in Hx. destruct (nth_error (i_X s) j) as [row |] eqn:E; [| discriminate].
            injection Hx as <-. f_equal. rewrite EX. unfold zget. rewrite Nat2Z.id. symmetry. now apply nth_error_nth. }
          rewrite EXj, <- ED. rewrite <- (cached_value (init_of s) t (Z.of_nat j)); [| apply I | now apply (in_trees _ I) | exact Hj].
          cbn [run32 fold_left init_of init trees] in Ht. apply repeat_spec in Ht. subst t.
          unfold cached. cbn [t_leaf t_idx]. unfold make_tree. apply zget_full_same. }
        revert VZ. generalize (trees (run s [])). intros ts VZ. induction ts as [| t ts IHt]; [reflexivity |].
        cbn [map fold_right]. rewrite (VZ t) by now left. rewrite IHt by (intros; apply VZ; now right). cbn. ring. }
      assert (T0 : true_residual (depth_of s) (run s []) x yv = B2R (yv : b32))
        by exact (eq_trans (f_equal (Rminus (B2R (yv : b32))) Z0) (Rminus_0_r _)).
      rewrite T0, Rminus_diag_eq, Rabs_R0 by reflexivity. unfold Rdiv. rewrite Rmult_0_r, !Rmult_0_l. apply Rle_refl.
    - destruct IH as (r & Hr & E).
      { intros ks1 k1 ks2 r Ek. apply (H ks1 k1 (ks2 ++ [k])). rewrite Ek, <- app_assoc. reflexivity. }
      set (ks' := rev l) in *. set (b := run s ks') in *.
      assert (RE : reached s b) by apply run32_reached.
      assert (RL : rlaws (gen32 log log1p bits normal gamma)) by apply gen32_laws.
      assert (EB : run s (ks' ++ [k]) = step (g := gen32 log log1p bits normal gamma) b k).
      { unfold b, run32. now rewrite fold_left_app. }
      pose proof (C07_updates s b _ k j x r OK RE RL Hx Hr) as U.
      destruct (H ks' k [] r eq_refl Hr) as [V P]. fold b in V, P. rewrite EB in V, P |- *.
      set (b' := step (g := gen32 log log1p bits normal gamma) b k) in *.
      assert (RE' : reached s b') by now apply reached_step.
      assert (NT : zlen (trees b) = zlen (trees b')).
      { destruct (reached_fields s b RE) as (_ & _ & _ & _ & _ & _ & _ & N1 & _).
        destruct (reached_fields s b' RE') as (_ & _ & _ & _ & _ & _ & _ & N2 & _). exact (eq_trans N1 (eq_sym N2)). }
      assert (LT : length (trees b) = length (trees b')) by (unfold zlen in NT; lia).
      eexists. split; [exact U |].
      pose proof (updates_error B (depth_of s) x (trees b) (trees b') r LT V P) as E'.
      rewrite (gap_sums (depth_of s) x (trees b) (trees b') LT) in E'.
      unfold true_residual in *. rewrite zlen_app, plus_IZR, <- NT.
      unfold b' in E'.
      change (zlen [k]) with 1.
      assert (U24 : u32 = (/ 2 ^ 24)%R) by (unfold u32; change (bpow radix2 (-24)) with (/ IZR (2 ^ 24))%R; f_equal; simpl; lra).
      rewrite U24 in E'. exact (one_more_step _ _ _ _ _ _ _ _ E E').
  Qed.
End Single.
Print Assumptions C07_float32_drift.

(** The hypothesis of C07_float32_drift is met by a run of 6 steps with bound 64,
    in which the trees have decision nodes (float32_example), and the residual is
    not exactly the response minus the sum of the trees. *)
Definition withinb (v : b32) : bool := is_finite v && Bleb (Babs v) (b32_of 64 0).
Lemma withinb_spec v : withinb v = true -> within 64 v.
Proof.
  intros H. apply andb_prop in H as [F H]. split; [exact F |].
  rewrite Bleb_correct in H; [| now rewrite is_finite_Babs | reflexivity].
  rewrite B2R_Babs in H. revert H. case Rle_bool_spec; [| discriminate]. intros H _.
  eapply Rle_trans; [exact H |].
  right. unfold B2R, F2R. simpl. lra.
Qed.
Definition checkb {ops : fops} (w : @F ops -> bool) (d : Z) (b b' : @bart ops) (x : Z -> Z) (j : nat) : bool :=
  match nth_error (resid b) j with
  | None => true
  | Some r => forallb (fun t => w (value_of d t x)) (trees b ++ trees b') &&
      forallb (fun m => w (residual_after d (firstn m (trees b)) (firstn m (trees b')) x r)) (seq 0 (S (length (trees b ++ trees b'))))
  end.
Lemma checkb_spec (b b' : @bart ops_ex) d x j r : nth_error (resid b) j = Some r -> checkb (ops := ops_ex) withinb d b b' x j = true ->
  step_within 64 d b b' x r.
Proof.
  unfold checkb. intros -> H. apply andb_prop in H as [H1 H2]. split.
  - intros t Ht. apply withinb_spec. rewrite forallb_forall in H1. exact (H1 t Ht).
  - intros m. rewrite forallb_forall in H2.
    destruct (Nat.le_gt_cases m (length (trees b ++ trees b'))) as [L | L].
    + apply withinb_spec, H2. apply in_seq. lia.
    + assert (Q := withinb_spec _ (H2 (length (trees b ++ trees b')) ltac:(apply in_seq; lia))).
      pose proof (app_length (trees b) (trees b')) as E.
      rewrite (firstn_all2 (trees b)), (firstn_all2 (trees b')) in Q by (rewrite E; lia).
      rewrite (firstn_all2 (trees b)), (firstn_all2 (trees b')) by (rewrite E in L; lia). exact Q.
Qed.
Definition keys_ex : list key := map KRoot (arange 6).
Definition steps_ex (ks : list key) : @bart ops_ex :=
  @run32 log32 (fun x => x) (fun k i => (key_hash k * 7121 + i * 48271) mod 8388593) (fun _ i => b32_of (1 - i) 0) (fun _ _ => b32_of 1 0) zclip foo_ex settings32 ks.
Definition point_ex : Z -> Z := nth 1 (points_of (zo := zclip) settings32) (fun _ => 0).
Lemma check_ex : forallb (fun n => checkb (ops := ops_ex) withinb (depth_of settings32) (steps_ex (firstn n keys_ex))
  (steps_ex (firstn (S n) keys_ex)) point_ex 1) (seq 0 6) = true.
Proof. vm_compute. reflexivity. Qed.

Example drift_example : settings_ok settings32 /\ nth_error (points_of (zo := zclip) settings32) 1 = Some point_ex /\
  (forall ks1 k ks2 r, keys_ex = ks1 ++ k :: ks2 -> nth_error (resid (steps_ex ks1)) 1 = Some r ->
     step_within 64 (depth_of settings32) (steps_ex ks1) (steps_ex (ks1 ++ [k])) point_ex r).
Proof.
  split; [apply float32_example | split; [reflexivity |]].
  intros ks1 k ks2 r E Hr. apply (checkb_spec _ _ _ _ _ _ Hr).
  pose proof check_ex as C. rewrite forallb_forall in C.
  assert (L : (length ks1 < 6)%nat).
  { apply (f_equal (@length key)) in E. rewrite app_length in E. change (length keys_ex) with 6%nat in E. cbn [length] in E. lia. }
  specialize (C (length ks1) ltac:(apply in_seq; lia)).
  assert (E1 : firstn (length ks1) keys_ex = ks1) by (rewrite E; clear; induction ks1 as [| a l IH]; [reflexivity | cbn [length app]; rewrite firstn_cons; f_equal; exact IH]).
  assert (E2 : firstn (S (length ks1)) keys_ex = ks1 ++ [k]).
  { rewrite E. clear. induction ks1 as [| a l IH]; [reflexivity |]. cbn [length app]. rewrite firstn_cons. f_equal. exact IH. }
  rewrite E1, E2 in C. exact C.
Qed.

(** C07. The residual of this run is not exactly the response minus the sum. *)
Definition sf_eqb (a b : SpecFloat.spec_float) : bool :=
  match a, b with
  | SpecFloat.S754_finite s m e, SpecFloat.S754_finite s' m' e' => Bool.eqb s s' && Pos.eqb m m' && (e =? e')
  | _, _ => false
  end.
Fixpoint sfs_eqb (a b : list SpecFloat.spec_float) : bool :=
  match a, b with
  | [], [] => true
  | x :: a, y :: b => sf_eqb x y && sfs_eqb a b
  | _, _ => false
  end.
Lemma sfs_eqb_eq : forall a b, sfs_eqb a b = true -> a = b.
Proof.
  induction a as [| x a IH]; intros [| y b]; cbn [sfs_eqb]; try discriminate; [reflexivity |].
  intros H. apply andb_prop in H as [H1 H2]. f_equal; [| now apply IH].
  destruct x, y; cbn [sf_eqb] in H1; try discriminate.
  apply andb_prop in H1 as [H1 H3]. apply andb_prop in H1 as [H1 H4].
  apply Bool.eqb_prop in H1. apply Pos.eqb_eq in H4. apply Z.eqb_eq in H3. now subst.
Qed.
Definition read (o : option (@F ops_ex)) : list SpecFloat.spec_float :=
  match o with Some r => [B2SF (r : b32)] | None => [] end.
Lemma first_value (o : option (@F ops_ex)) x :
  sfs_eqb (read o) [x] = true -> exists r, o = Some r /\ B2SF (r : b32) = x.
Proof.
  intros H. apply sfs_eqb_eq in H. destruct o as [r |]; [| discriminate H].
  exists r. split; [reflexivity | exact (f_equal (hd (SpecFloat.S754_zero false)) H)].
Qed.
Lemma values_check : sfs_eqb
  (map B2SF (map (fun t => value_of (fo := ops_ex) (depth_of settings32) t point_ex : b32) (trees (steps_ex keys_ex))))
  [SpecFloat.S754_finite true 9383204 (-24); SpecFloat.S754_finite true 10281976 (-20); SpecFloat.S754_finite true 10286642 (-19)] = true.
Proof. vm_compute. reflexivity. Qed.
Lemma resid_check : sfs_eqb (read (nth_error (resid (steps_ex keys_ex)) 1))
  [SpecFloat.S754_finite false 8515788 (-18)] = true.
Proof. vm_compute. reflexivity. Qed.

Theorem C07_float32_refuted : exists (log log1p : b32 -> b32) bits normal gamma (zo : zoob) (foo : foob (ops32 log log1p)) (s : @settings (ops32 log log1p)) ks j x yv r,
  settings_ok s /\ nth_error (points_of s) j = Some x /\ nth_error (i_y s) j = Some yv /\
  nth_error (resid (run32 log log1p bits normal gamma s ks)) j = Some r /\
  B2R (r : b32) <> true_residual (depth_of s) (run32 log log1p bits normal gamma s ks) x yv.
Proof.
  pose proof (sfs_eqb_eq _ _ values_check) as V.
  destruct (first_value (nth_error (resid (steps_ex keys_ex)) 1) (SpecFloat.S754_finite false 8515788 (-18)) resid_check) as (r & E & Rr).
  do 5 eexists. exists zclip, foo_ex, settings32, keys_ex, 1%nat, point_ex, (b32_of 5 (-1)), r.
  split; [apply float32_example |]. split; [reflexivity |]. split; [reflexivity |]. split; [exact E |].
  change (B2R (r : b32) <> (B2R (b32_of 5 (-1)) - fold_right Rplus 0 (map (fun t => B2R (value_of (fo := ops_ex) (depth_of settings32) t point_ex : b32)) (trees (steps_ex keys_ex))))%R).
  assert (V' : map (fun t => B2R (value_of (fo := ops_ex) (depth_of settings32) t point_ex : b32)) (trees (steps_ex keys_ex)) =
    map (SF2R radix2) [SpecFloat.S754_finite true 9383204 (-24); SpecFloat.S754_finite true 10281976 (-20); SpecFloat.S754_finite true 10286642 (-19)]).
  { rewrite <- V, !map_map. apply map_ext. intros t. symmetry. apply SF2R_B2SF. }
  rewrite V', <- (SF2R_B2SF 24 128 r), Rr. clear. intros H.
  apply (f_equal (Rmult (bpow radix2 24))) in H. cbn [map fold_right SF2R] in H. unfold F2R in H. cbn [Fnum Fexp cond_Zopp Z.opp] in H.
  unfold B2R, F2R in H. simpl in H. lra.
Qed.
Print Assumptions C07_float32_refuted.
