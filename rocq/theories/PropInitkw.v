(** C57: replacing the arguments of the sampler through [initkw] *)
From Coq Require Import ZArith List Bool Reals String Lia Lra.
From Verif Require Import Base LemBase Laws ModelJaxext ModelGrove ModelStep ModelLoop ModelBatchSize ModelBART
  ModelInitkw SpecRun SpecInitkw PropBatchSize.
Import ListNotations.
Open Scope Z_scope.

(** ** Dictionaries *)
Lemma lookup_set d k v k' : lookup (dict_set d k v) k' = if String.eqb k k' then Some v else lookup d k'.
Proof.
  induction d as [| [j w] d IH]; cbn [dict_set lookup]; [reflexivity |].
  destruct (String.eqb_spec j k) as [-> | N]; cbn [lookup].
  - destruct (String.eqb_spec k k'); reflexivity.
  - rewrite IH. destruct (String.eqb_spec j k') as [-> | N']; [| reflexivity].
    destruct (String.eqb_spec k k'); congruence.
Qed.
Lemma keys_set d k v k' : In k' (map fst (dict_set d k v)) <-> k' = k \/ In k' (map fst d).
Proof.
  induction d as [| [j w] d IH]; cbn [dict_set map fst In]; [intuition |].
  destruct (String.eqb_spec j k) as [-> | N]; cbn [map fst In]; [intuition |]. rewrite IH. intuition.
Qed.
Lemma nodup_set d k v : NoDup (map fst d) -> NoDup (map fst (dict_set d k v)).
Proof.
  induction d as [| [j w] d IH]; cbn [dict_set map fst]; intros H.
  - constructor; [intros [] | constructor].
  - inversion H as [| ? ? H1 H2]; subst. destruct (String.eqb_spec j k) as [-> | N]; cbn [map fst].
    + now constructor.
    + constructor; [| auto]. rewrite keys_set. intros [E | E]; congruence.
Qed.
Lemma lookup_none (d : list (string * argval)) k : lookup d k = None <-> ~ In k (map fst d).
Proof.
  induction d as [| [j w] d IH]; cbn [lookup map fst In]; [intuition |].
  destruct (String.eqb_spec j k); [intuition congruence | rewrite IH; intuition].
Qed.
Lemma lookup_in (d : list (string * argval)) k v : NoDup (map fst d) -> lookup d k = Some v <-> In (k, v) d.
Proof.
  induction d as [| [j w] d IH]; cbn [lookup map fst In]; intros H; [intuition discriminate |].
  inversion H as [| ? ? H1 H2]; subst. destruct (String.eqb_spec j k) as [-> | N].
  - split; [intros E; injection E as ->; auto |]. intros [E | E]; [congruence |].
    exfalso. apply H1. change k with (fst (k, v)). now apply in_map.
  - rewrite IH by auto. split; [auto |]. intros [E | E]; [congruence | auto].
Qed.
Lemma lookup_update new : forall d k, NoDup (map fst new) ->
  lookup (dict_update d new) k = match lookup new k with Some v => Some v | None => lookup d k end.
Proof.
  unfold dict_update. induction new as [| [j w] new IH]; intros d k H; [reflexivity |].
  cbn [map fst] in H. inversion H as [| ? ? H1 H2]; subst.
  cbn [fold_left fst snd lookup]. rewrite IH, lookup_set by auto.
  destruct (String.eqb_spec j k) as [-> | N]; [| reflexivity].
  apply lookup_none in H1. now rewrite H1.
Qed.
Lemma nodup_update new : forall d, NoDup (map fst d) -> NoDup (map fst (dict_update d new)).
Proof.
  unfold dict_update. induction new as [| [j w] new IH]; intros d H; [exact H |].
  cbn [fold_left]. apply IH. now apply nodup_set.
Qed.
Lemma keys_update new : forall d k, In k (map fst (dict_update d new)) <-> In k (map fst new) \/ In k (map fst d).
Proof.
  unfold dict_update. induction new as [| [j w] new IH]; intros d k; [cbn; intuition |].
  cbn [fold_left map fst In snd]. rewrite IH, keys_set. intuition.
Qed.

Section Initkw.
  Context (e1 e2 e3 : Z -> Z) (platform : string).
  Context (x : list (list Z)) (y : list R) (max_split : list Z) (bits : Z)
    (lamda sigdf power base : R) (maxdepth ntree : Z).
  Notation setup := (setup_mcmc_kw e1 e2 e3 platform x y max_split bits lamda sigdf power base maxdepth ntree).
  Notation kw0 := (gbart_kw x y max_split bits lamda sigdf power base maxdepth ntree).
  Notation final initkw := (dict_update init_defaults (dict_update kw0 initkw)).

  Lemma kw0_nodup : NoDup (map fst kw0).
  Proof. cbn [gbart_kw map fst]. repeat constructor; cbn [In]; intuition discriminate. Qed.

  Lemma final_lookup initkw k : NoDup (map fst initkw) -> lookup (final initkw) k =
    match lookup initkw k with Some v => Some v | None =>
    match lookup kw0 k with Some v => Some v | None => lookup init_defaults k end end.
  Proof.
    intros H. rewrite lookup_update by (apply nodup_update, kw0_nodup). rewrite lookup_update by auto.
    destruct (lookup initkw k); reflexivity.
  Qed.

  (** the arguments that arrive *)
  Lemma call_uses kw s k v : call_init e1 e2 e3 platform kw = Some s ->
    lookup (dict_update init_defaults kw) k = Some v -> uses s k v.
  Proof.
    intros C L. unfold call_init in C. destruct (forallb _ _); [| discriminate]. cbv zeta in C.
    set (args := dict_update init_defaults kw) in *. clearbody args.
    repeat match type of C with
    | match lookup args ?n with _ => _ end = _ => let w := fresh "w" in let E := fresh "E" in
        destruct (lookup args n) as [w |] eqn:E; [destruct w; try discriminate | discriminate]
    end.
    destruct (lookup args "min_points_per_leaf") as [mp |] eqn:Em; [| discriminate].
    destruct (lookup args "resid_batch_size") as [rb |] eqn:Er; [| destruct mp; discriminate].
    destruct (lookup args "count_batch_size") as [cb |] eqn:Ec; [| destruct mp, rb; discriminate].
    destruct (lookup args "save_ratios") as [sr |] eqn:Es; [| destruct mp, rb, cb; discriminate].
    destruct mp, rb; try discriminate; destruct cb; try discriminate; destruct sr; try discriminate;
      cbn [as_batch] in C;
      destruct (lookup args "small_float") as [[] |]; try discriminate;
      destruct (lookup args "large_float") as [[] |]; try discriminate;
      unfold choose_suffstat_batch_size in C;
      (destruct (choose_resid_batch_size _ _ _ _ _) as [r |] eqn:Cr; [| discriminate]);
      (destruct (choose_count_batch_size _ _ _ _ _) as [c |] eqn:Cc; [| discriminate]);
      injection C as <-; cbn [choose_resid_batch_size choose_count_batch_size] in Cr, Cc;
      try (injection Cr as <-); try (injection Cc as <-);
      constructor; intros ->; cbn [i_X i_y i_max_split i_split_bits i_num_trees i_p_nonterminal i_sigma2_alpha
        i_sigma2_beta i_min_points i_resid_batch i_count_batch i_save_ratios as_size option_map]; rewrite L in *;
      repeat match goal with H : Some _ = Some _ |- _ => injection H as H; subst end; auto.
  Qed.

  Lemma default_lookup k v : gbart_default x y max_split bits lamda sigdf power base maxdepth ntree k v -> k <> "p_nonterminal"%string ->
    match lookup kw0 k with Some v => Some v | None => lookup init_defaults k end = Some v.
  Proof.
    intros H N. unfold gbart_default in H.
    repeat (destruct H as [[-> H] | H]; [try (now rewrite H); congruence |]). destruct H as [-> ->]. reflexivity.
  Qed.

  Lemma floats_unique l l' : zlen l = Z.max 0 (maxdepth - 1) -> zlen l' = Z.max 0 (maxdepth - 1) ->
    (forall d, 0 <= d < maxdepth - 1 -> nth (Z.to_nat d) l 0%R = nth (Z.to_nat d) l' 0%R) -> l = l'.
  Proof.
    unfold zlen. intros H1 H2 H. apply (nth_ext _ _ 0%R 0%R); [lia |]. intros i Hi.
    specialize (H (Z.of_nat i)). rewrite Nat2Z.id in H. apply H. lia.
  Qed.

  (** C57. The sampler uses every entry of [initkw], and the documented default
      of every parameter that [initkw] does not have. *)
  Theorem C57_override : forall initkw s, NoDup (map fst initkw) -> setup initkw = Some s ->
    (forall k v, In (k, v) initkw -> uses s k v) /\
    (forall k v, ~ In k (map fst initkw) ->
       gbart_default x y max_split bits lamda sigdf power base maxdepth ntree k v -> uses s k v).
  Proof.
    intros kw s N C. split; intros k v H.
    - apply (call_uses _ _ _ _ C). rewrite final_lookup by auto.
      apply lookup_in in H; auto. now rewrite H.
    - intros D. apply (call_uses _ _ _ _ C). rewrite final_lookup by auto.
      apply lookup_none in H. rewrite H.
      destruct (string_dec k "p_nonterminal") as [-> | E]; [| now apply default_lookup].
      unfold gbart_default in D.
      repeat (destruct D as [[E D] | D]; [try discriminate E |]); [| destruct D as [E _]; discriminate E].
      destruct D as (l & -> & L & P). cbn [gbart_kw lookup String.eqb Ascii.eqb Bool.eqb]. do 2 f_equal.
      apply floats_unique; auto.
      + unfold zlen. rewrite map_length. change (zlen (arange (maxdepth - 1)) = Z.max 0 (maxdepth - 1)).
        unfold zlen, arange. rewrite map_length, seq_length. lia.
      + intros d Hd. rewrite P by auto.
        rewrite (nth_indep _ 0%R ((fun d => base / Rpower (IZR (1 + d)) power)%R 0)).
        2: { rewrite map_length. unfold arange. rewrite map_length, seq_length. lia. }
        rewrite (map_nth (fun d => base / Rpower (IZR (1 + d)) power)%R). unfold arange.
        change 0 with (Z.of_nat 0) at 1. rewrite map_nth, seq_nth by lia. now rewrite Nat.add_0_l, Z2Nat.id by lia.
  Qed.

  (** C57. The constructor raises exactly if [initkw] has a keyword that is not
      a parameter of [init] (or a value of the wrong type). *)
  Theorem C57_accepted : forall initkw, platform = "cpu"%string \/ platform = "gpu"%string -> NoDup (map fst initkw) ->
    (exists s, setup initkw = Some s) <-> (forall k v, In (k, v) initkw -> takes k v).
  Proof.
    intros kw Hp N.
    assert (T : forall k, In k parameters -> exists v, lookup (final kw) k = Some v /\
        ((lookup kw k = Some v) \/ takes k v)).
    { intros k Hk. rewrite final_lookup by auto. destruct (lookup kw k) as [v |]; [now exists v; auto |].
      cbn [parameters In] in Hk.
      repeat (destruct Hk as [<- | Hk]; [eexists; split; [reflexivity | right; cbn [takes]; tauto] |]). destruct Hk. }
    assert (K : forall k, In k parameters <-> existsb (String.eqb k) (init_required ++ map fst init_defaults) = true).
    { intros k. rewrite existsb_exists. split.
      - intros H. exists k. split; [| apply String.eqb_refl]. revert H. cbn. tauto.
      - intros (j & H & E). apply String.eqb_eq in E. subst j. revert H. cbn. tauto. }
    unfold setup_mcmc_kw, call_init. cbv zeta.
    destruct (forallb (fun kv => existsb (String.eqb (fst kv)) (init_required ++ map fst init_defaults)) (dict_update kw0 kw)) eqn:F.
    2: { split; [intros [s E]; discriminate |]. intros H. exfalso.
      enough (forallb (fun kv => existsb (String.eqb (fst kv)) (init_required ++ map fst init_defaults)) (dict_update kw0 kw) = true) by congruence.
      apply forallb_forall. intros [k v] Hk. cbn [fst]. apply K.
      assert (In k (map fst (dict_update kw0 kw))) as G by (change k with (fst (k, v)); now apply in_map).
      apply keys_update in G as [G | G].
      - apply in_map_iff in G as ([k' w] & <- & G). cbn [fst]. specialize (H _ _ G).
        destruct w; cbn [takes] in H; cbn; intuition.
      - revert G. cbn. tauto. }
    set (args := final kw) in *.
    assert (L : forall k v, lookup kw k = Some v -> lookup args k = Some v).
    { intros k v H. unfold args. rewrite final_lookup by auto. now rewrite H. }
    assert (P : forall k v, In (k, v) kw -> In k parameters).
    { intros k v H. apply K. rewrite forallb_forall in F.
      assert (G : In k (map fst (dict_update kw0 kw))).
      { apply keys_update. left. change k with (fst (k, v)). now apply in_map. }
      apply in_map_iff in G as ([k' w] & <- & G). now apply (F _ G). }
    split.
    - intros [s C] k v H. pose proof (P _ _ H) as Pk. apply lookup_in in H; auto. apply L in H. clear T L P K F.
      clearbody args.
      repeat match type of C with
      | match lookup args ?n with _ => _ end = _ => let w := fresh "w" in let E := fresh "E" in
          destruct (lookup args n) as [w |] eqn:E; [destruct w; try discriminate | discriminate]
      end.
      destruct (lookup args "min_points_per_leaf") as [mp |] eqn:Em; [| discriminate].
      destruct (lookup args "resid_batch_size") as [rb |] eqn:Er; [| destruct mp; discriminate].
      destruct (lookup args "count_batch_size") as [cb |] eqn:Ec; [| destruct mp, rb; discriminate].
      destruct (lookup args "save_ratios") as [sr |] eqn:Es; [| destruct mp, rb, cb; discriminate].
      assert (Am : takes "min_points_per_leaf" mp) by (destruct mp; try discriminate; cbn; auto).
      assert (Ar : takes "resid_batch_size" rb) by (destruct mp, rb; try discriminate; cbn; auto).
      assert (Ac : takes "count_batch_size" cb) by (destruct mp, rb, cb; try discriminate; cbn; auto).
      assert (As : takes "save_ratios" sr) by (destruct mp, rb; try discriminate; destruct cb, sr; try discriminate; cbn; auto).
      assert (Ad : lookup args "small_float" = Some ADtype /\ lookup args "large_float" = Some ADtype).
      { destruct mp, rb; try discriminate; destruct cb; try discriminate; destruct sr; try discriminate;
          destruct (lookup args "small_float") as [[] |]; try discriminate;
          destruct (lookup args "large_float") as [[] |]; try discriminate; auto. }
      destruct Ad as [Ad1 Ad2]. clear C. cbn [parameters In] in Pk.
      repeat (destruct Pk as [<- | Pk]; [rewrite H in *;
        repeat match goal with H : Some _ = Some _ |- _ => injection H as H; subst end; cbn [takes]; auto |]).
      destruct Pk.
    - intros H.
      assert (G : forall k, In k parameters -> exists v, lookup args k = Some v /\ takes k v).
      { intros k Hk. destruct (T k Hk) as (v & E & [D | D]); [| now exists v]. exists v. split; [exact E |].
        apply H. now apply lookup_in. }
      assert (GX := G "X"%string ltac:(cbn; tauto)). assert (Gy := G "y"%string ltac:(cbn; tauto)).
      assert (Gm := G "max_split"%string ltac:(cbn; tauto)). assert (Gn := G "num_trees"%string ltac:(cbn; tauto)).
      assert (Gp := G "p_nonterminal"%string ltac:(cbn; tauto)). assert (Ga := G "sigma2_alpha"%string ltac:(cbn; tauto)).
      assert (Gb := G "sigma2_beta"%string ltac:(cbn; tauto)). assert (Gs := G "small_float"%string ltac:(cbn; tauto)).
      assert (Gl := G "large_float"%string ltac:(cbn; tauto)). assert (Gk := G "min_points_per_leaf"%string ltac:(cbn; tauto)).
      assert (Gr := G "resid_batch_size"%string ltac:(cbn; tauto)). assert (Gc := G "count_batch_size"%string ltac:(cbn; tauto)).
      assert (Gz := G "save_ratios"%string ltac:(cbn; tauto)).
      clear G T L P K F H. clearbody args.
      Ltac one G := let v := fresh "v" in let E := fresh "E" in let T := fresh "T" in
        destruct G as (v & E & T); rewrite E; clear E;
        destruct v; cbn [takes] in T; try (exfalso; intuition discriminate); clear T.
      one GX. one Gy. one Gm. one Gn. one Gp. one Ga. one Gb.
      assert (Bz : forall r c m sr (xx : list (list Z)) yy ms bb nt pp aa be,
        exists s, match choose_suffstat_batch_size e1 e2 e3 r c platform (zlen (yy : list R)) (2 ^ (zlen (pp : list R) + 1) * nt) with
          | Some (resid, count) => Some (@mksettings rops xx yy ms bb nt pp aa be m (as_size resid) (as_size count) sr)
          | None => None end = Some s).
      { intros. destruct (C44_batch_sizes e1 e2 e3 r c platform (zlen yy) (2 ^ (zlen pp + 1) * nt) Hp) as (r' & c' & E & _).
        rewrite E. eexists. reflexivity. }
      one Gs. one Gl. one Gz. destruct Gk as (vk & Ek & Tk), Gr as (vr & Er & Tr), Gc as (vc & Ec & Tc).
      rewrite Ek, Er, Ec.
      destruct vk; cbn [takes] in Tk; try (exfalso; intuition discriminate);
      destruct vr; cbn [takes] in Tr; try (exfalso; intuition discriminate);
      destruct vc; cbn [takes] in Tc; try (exfalso; intuition discriminate); cbn [as_batch]; apply Bz.
  Qed.

  (** C57. A batch size that is 'auto', by default or in [initkw], is chosen for the data
      and the forest that the sampler gets, and it is valid. *)
  Theorem C57_auto : forall initkw s, platform = "cpu"%string \/ platform = "gpu"%string -> NoDup (map fst initkw) ->
    setup initkw = Some s ->
    (~ In "resid_batch_size"%string (map fst initkw) \/ In ("resid_batch_size"%string, AAuto) initkw -> exists k, i_resid_batch s = Some k /\ 1 <= k) /\
    (~ In "count_batch_size"%string (map fst initkw) \/ In ("count_batch_size"%string, AAuto) initkw ->
       if String.eqb platform "cpu" then i_count_batch s = None
       else exists k, i_count_batch s = Some k /\ 1 <= k /\
         (0 <= i_num_trees s -> 2 ^ depth_of s * i_num_trees s * 4 * zlen (i_y s) <= 2 ^ 29 * k)).
  Proof.
    intros kw s Hp N C. unfold setup_mcmc_kw, call_init in C. destruct (forallb _ _); [| discriminate]. cbv zeta in C.
    assert (Lr : ~ In "resid_batch_size"%string (map fst kw) \/ In ("resid_batch_size"%string, AAuto) kw -> lookup (final kw) "resid_batch_size" = Some AAuto).
    { intros [H | H]; rewrite final_lookup by auto; [apply lookup_none in H | apply lookup_in in H; auto]; now rewrite H. }
    assert (Lc : ~ In "count_batch_size"%string (map fst kw) \/ In ("count_batch_size"%string, AAuto) kw -> lookup (final kw) "count_batch_size" = Some AAuto).
    { intros [H | H]; rewrite final_lookup by auto; [apply lookup_none in H | apply lookup_in in H; auto]; now rewrite H. }
    set (args := final kw) in *. clearbody args.
    repeat match type of C with
    | match lookup args ?n with _ => _ end = _ => let w := fresh "w" in let E := fresh "E" in
        destruct (lookup args n) as [w |] eqn:E; [destruct w; try discriminate | discriminate]
    end.
    destruct (match lookup args "min_points_per_leaf" with
               | Some ANone => Some None | Some (AInt m) => Some (Some m) | _ => None end) as [mp |]; [| discriminate].
    destruct (match lookup args "resid_batch_size" with Some v => as_batch v | None => None end) as [rb |] eqn:Er; [| discriminate].
    destruct (match lookup args "count_batch_size" with Some v => as_batch v | None => None end) as [cb |] eqn:Ec; [| discriminate].
    destruct (match lookup args "save_ratios" with Some (ABool b) => Some b | _ => None end); [| discriminate].
    destruct (lookup args "small_float") as [[] |]; try discriminate.
    destruct (lookup args "large_float") as [[] |]; try discriminate.
    match type of C with context [choose_suffstat_batch_size e1 e2 e3 rb cb platform ?a ?b] =>
      destruct (C44_batch_sizes e1 e2 e3 rb cb platform a b Hp) as (r & c & EE & HR & HC);
      pose proof (C44_memory e1 e2 e3 rb a b) as HM end.
    rewrite EE in C. injection C as <-.
    unfold depth_of. cbn [i_resid_batch i_count_batch i_num_trees i_p_nonterminal i_y]. split.
    - intros H. rewrite (Lr H) in Er. injection Er as <-. destruct HR as (k & -> & K). now exists k.
    - intros H. rewrite (Lc H) in Ec. injection Ec as <-. destruct Hp as [-> | ->].
      + cbn in HC |- *. now rewrite HC.
      + cbn [String.eqb Ascii.eqb Bool.eqb] in HC |- *. destruct HC as (k & -> & K). exists k.
        split; [reflexivity |]. split; [exact K |]. intros Hz.
        destruct (HM r (Some (PInt k))) as (k' & Ek & Hk'); auto.
        * unfold zlen; lia.
        * apply Z.mul_nonneg_nonneg; [apply Z.pow_nonneg; lia | auto].
        * injection Ek as <-. exact Hk'.
  Qed.

  (** C57. With the four entries of ModelBART.v it gives the same settings. *)
  Definition entries (kw : init_kw) : list (string * argval) :=
    let size b := match b with Some z => AInt z | None => ANone end in
    (match kw_min_points kw with Some m => [("min_points_per_leaf"%string, size m)] | None => [] end) ++
    [("resid_batch_size", size (kw_resid_batch kw)); ("count_batch_size", size (kw_count_batch kw));
     ("save_ratios", ABool (kw_save_ratios kw))]%string.
  Theorem C57_same_settings : forall kw, setup (entries kw) =
    Some (setup_mcmc x y max_split bits lamda sigdf power base maxdepth ntree kw).
  Proof. intros [[[m |] |] [r |] [c |] sr]; reflexivity. Qed.
End Initkw.
Print Assumptions C57_override.
Print Assumptions C57_accepted.
Print Assumptions C57_auto.
Print Assumptions C57_same_settings.

(** a dictionary with more trees and another prior on the trees, and one with a
    keyword that [init] does not have *)
Definition ex_initkw : list (string * argval) :=
  [("num_trees", AInt 7); ("p_nonterminal", AFloats [0.5%R; 0.25%R]); ("min_points_per_leaf", ANone)]%string.
Example initkw_example :
  NoDup (map fst ex_initkw) /\ (forall k v, In (k, v) ex_initkw -> takes k v) /\
  (exists s, setup_mcmc_kw (fun _ => 3) (fun _ => 2) (fun _ => 1) "gpu" [[1]; [2]] [0.1%R; 0.2%R] [3] 8 1 3 2 0.95 6 200 ex_initkw = Some s /\
     i_num_trees s = 7 /\ depth_of s = 3 /\ i_min_points s = None /\ i_count_batch s = Some 2 /\ i_max_split s = [3]) /\
  setup_mcmc_kw (fun _ => 3) (fun _ => 2) (fun _ => 1) "gpu" [[1]; [2]] [0.1%R; 0.2%R] [3] 8 1 3 2 0.95 6 200
    (("ntree"%string, AInt 7) :: ex_initkw) = None.
Proof.
  split; [| split; [| split]].
  - cbn [ex_initkw map fst]. repeat constructor; cbn [In]; intuition discriminate.
  - intros k v H. cbn [ex_initkw In] in H. repeat (destruct H as [H | H]; [injection H as <- <-; cbn [takes]; tauto |]). destruct H.
  - eexists. split; [reflexivity |]. repeat split.
  - reflexivity.
Qed.
