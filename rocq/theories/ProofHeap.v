(** Execution of the MCMC step on dictionaries. *)
From Coq Require Import String ZArith List Bool Lia.
From Verif Require Import Base LemBase ModelJaxext ModelGrove ModelStep ModelHeap SpecHeap.
Import ListNotations.
Open Scope string_scope.
Open Scope list_scope.
Open Scope nat_scope.

Section ProofHeap.
  Context {fo : fops} {zo : zoob} {foo : foob fo}.

  (** ** Lists *)

  Lemma upd_app_new {A} i (d : A) h l : upd (length h + i) d (h ++ l) = h ++ upd i d l.
  Proof. induction h as [| x h IH]; [reflexivity |]. cbn [length Nat.add app upd]. now rewrite IH. Qed.
  Lemma upd_app_old {A} i (d : A) h l : i < length h -> upd i d (h ++ l) = upd i d h ++ l.
  Proof.
    revert i. induction h as [| x h IH]; intros i Hi; cbn [length] in Hi; [lia |].
    destruct i as [| i]; [reflexivity |]. cbn [app upd]. rewrite IH by lia. reflexivity.
  Qed.
  Lemma nth_error_new {A} i (h l : list A) : nth_error (h ++ l) (length h + i) = nth_error l i.
  Proof. rewrite nth_error_app2 by lia. f_equal. lia. Qed.
  Lemma nth_error_old {A} i (h l : list A) d : nth_error h i = Some d -> nth_error (h ++ l) i = Some d.
  Proof. intros H. rewrite nth_error_app1; [exact H |]. apply nth_error_Some. congruence. Qed.
  Lemma nth_error_lt {A} i (h : list A) d : nth_error h i = Some d -> i < length h.
  Proof. intros H. apply nth_error_Some. congruence. Qed.
  Lemma nth_error_upd {A} i (h : list A) d x : i < length h ->
    nth_error (upd i d h) x = if Nat.eqb x i then Some d else nth_error h x.
  Proof.
    revert i x. induction h as [| y h IH]; intros i x Hi; cbn [length] in Hi; [lia |].
    destruct i as [| i], x as [| x]; cbn [upd nth_error Nat.eqb]; try reflexivity. apply IH. lia.
  Qed.

  Lemma upd_upd {A} i (h : list A) d d' : upd i d' (upd i d h) = upd i d' h.
  Proof.
    revert i. induction h as [| y h IH]; intros [| i]; cbn [upd]; try reflexivity. now rewrite IH.
  Qed.

  (** ** Operations *)

  Lemma read_eq h a d : nth_error h a = Some d -> read a h = Some (d, h).
  Proof. intros H. unfold read. now rewrite H. Qed.
  Lemma get_eq {A} (conv : pyval -> option A) h a k d v x :
    nth_error h a = Some d -> dget d k = Some v -> conv v = Some x -> get conv a k h = Some (x, h).
  Proof.
    intros H1 H2 H3. unfold get, get_item, bind. rewrite (read_eq _ _ _ H1). unfold lift. rewrite H2. now rewrite H3.
  Qed.
  Lemma get_item_eq h a k d v :
    nth_error h a = Some d -> dget d k = Some v -> get_item a k h = Some (v, h).
  Proof. intros H1 H2. unfold get_item, bind. rewrite (read_eq _ _ _ H1). unfold lift. now rewrite H2. Qed.
  Lemma set_item_eq h a k v d : nth_error h a = Some d -> set_item a k v h = Some (tt, upd a (dset d k v) h).
  Proof. intros H. unfold set_item, bind. now rewrite (read_eq _ _ _ H). Qed.
  Lemma copy_eq h a d : nth_error h a = Some d -> copy_dict a h = Some (length h, h ++ [d]).
  Proof. intros H. unfold copy_dict, bind. now rewrite (read_eq _ _ _ H). Qed.
  Lemma pop_eq h a k d v : nth_error h a = Some d -> dget d k = Some v ->
    pop_item a k h = Some (v, upd a (ddel d k) h).
  Proof. intros H1 H2. unfold pop_item, bind. rewrite (read_eq _ _ _ H1). unfold lift. now rewrite H2. Qed.
  Lemma has_eq h a k d : nth_error h a = Some d ->
    has_item a k h = Some (match dget d k with Some _ => true | None => false end, h).
  Proof. intros H1. unfold has_item, bind. now rewrite (read_eq _ _ _ H1). Qed.
  Lemma bind_eq {A B} (m : prog A) (f : A -> prog B) h x h' : m h = Some (x, h') -> bind m f h = f x h'.
  Proof. intros H. unfold bind. now rewrite H. Qed.

  Lemma zip_trees_id ts :
    zip_trees (map t_leaf ts) (map t_var ts) (map t_split ts) (map t_idx ts) (map t_aff ts) = ts.
  Proof. induction ts as [| [] ts IH]; [reflexivity |]. cbn [map zip_trees]. rewrite IH. reflexivity. Qed.

  Definition flag (rat : option addr) : option (list (F * F)) := match rat with Some _ => Some [] | None => None end.

  Lemma read_bart_eq h a b o r :
    nth_error h a = Some (bart_dict b o r) -> nth_error h o = Some (opt_dict b) ->
    read_bart a h = Some (set_ratios b (flag r), h).
  Proof.
    intros Ha Ho. unfold read_bart.
    repeat (erewrite bind_eq; [| eapply get_eq; [exact Ha | reflexivity | reflexivity]]).
    assert (E1 : as_optint (opt_int (min_points_per_leaf b)) = Some (min_points_per_leaf b)) by (now destruct (min_points_per_leaf b)).
    assert (E2 : as_optint (opt_int (resid_batch_size b)) = Some (resid_batch_size b)) by (now destruct (resid_batch_size b)).
    assert (E3 : as_optint (opt_int (count_batch_size b)) = Some (count_batch_size b)) by (now destruct (count_batch_size b)).
    rewrite (bind_eq _ _ h _ h (get_eq as_optint h a "min_points_per_leaf" _ _ _ Ha eq_refl E1)).
    repeat (erewrite bind_eq; [| eapply get_eq; [exact Ha | reflexivity | reflexivity]]).
    rewrite (bind_eq _ _ h _ h (get_eq as_optint h o "resid_batch_size" _ _ _ Ho eq_refl E2)).
    rewrite (bind_eq _ _ h _ h (get_eq as_optint h o "count_batch_size" _ _ _ Ho eq_refl E3)).
    rewrite (bind_eq _ _ h _ h (has_eq h a "ratios" _ Ha)).
    unfold ret. rewrite zip_trees_id. unfold set_ratios, flag. cbn [fst snd].
    destruct r; reflexivity.
  Qed.

  (** ** Lists over the trees *)

  Lemma map_map2_l {A B C D} (f : C -> D) (g : A -> B -> C) (q : A -> D) a b :
    (forall x y, f (g x y) = q x) -> length a = length b -> map f (map2 g a b) = map q a.
  Proof.
    intros H. revert b. induction a as [| x a IH]; destruct b as [| y b]; intros L; try discriminate; [reflexivity |].
    cbn [map2 map]. rewrite H. f_equal. apply IH. now injection L.
  Qed.
  Lemma map_map2_r {A B C D} (f : C -> D) (g : A -> B -> C) (q : B -> D) a b :
    (forall x y, f (g x y) = q y) -> length a = length b -> map f (map2 g a b) = map q b.
  Proof.
    intros H. revert b. induction a as [| x a IH]; destruct b as [| y b]; intros L; try discriminate; [reflexivity |].
    cbn [map2 map]. rewrite H. f_equal. apply IH. now injection L.
  Qed.

  Lemma enumerate_snd {A} (l : list A) : map snd (enumerate l) = l.
  Proof.
    unfold enumerate. assert (L : length (arange (zlen l)) = length l) by (rewrite length_arange; unfold zlen; lia).
    revert L. generalize (arange (zlen l)). induction l as [| x l IH]; intros [| i a] L; try discriminate; [reflexivity |].
    cbn [combine map snd]. f_equal. apply IH. now injection L.
  Qed.
  Lemma length_enumerate {A} (l : list A) : length (enumerate l) = length l.
  Proof. rewrite <- (enumerate_snd l) at 2. now rewrite map_length. Qed.

  Lemma parallel_tree_fields {g : rng fo} b k it m :
    let s := parallel_stage_tree b k (fst it) (snd it) m in
    t_var (s_tree s) = m_var_tree m /\ t_split (s_tree s) = t_split (snd it) /\ s_move s = m /\
    (min_points_per_leaf b = None -> t_aff (s_tree s) = t_aff (snd it)).
  Proof.
    cbv zeta. unfold parallel_stage_tree. destruct (compute_count_trees _ _ _) as [ct c]. cbn.
    repeat split. intros ->. reflexivity.
  Qed.

  Lemma parallel_fields {g : rng fo} b mv k : length mv = length (trees b) ->
    let ss := parallel_stage b mv k in
    map (fun s => t_var (s_tree s)) ss = map m_var_tree mv /\
    map (fun s => t_split (s_tree s)) ss = map t_split (trees b) /\
    map s_move ss = mv /\
    (min_points_per_leaf b = None -> map (fun s => t_aff (s_tree s)) ss = map t_aff (trees b)) /\
    length ss = length (trees b).
  Proof.
    intros L. cbv zeta. unfold parallel_stage.
    assert (LE : length (enumerate (trees b)) = length mv) by (rewrite length_enumerate; congruence).
    repeat split.
    - apply (map_map2_r _ _ m_var_tree); [intros; apply parallel_tree_fields | exact LE].
    - rewrite (map_map2_l _ _ (fun it : Z * tree => t_split (snd it))); [| intros; apply parallel_tree_fields | exact LE].
      rewrite <- (enumerate_snd (trees b)) at 2. now rewrite map_map.
    - rewrite (map_map2_r _ _ (fun m => m)); [apply map_id | intros; apply parallel_tree_fields | exact LE].
    - intros N. rewrite (map_map2_l _ _ (fun it : Z * tree => t_aff (snd it))); [| intros; now apply parallel_tree_fields | exact LE].
      rewrite <- (enumerate_snd (trees b)) at 2. now rewrite map_map.
    - rewrite length_map2, LE, L. apply Nat.min_id.
  Qed.

  Lemma set_trees_id ss : set_trees (map s_tree ss) (map s_move ss) (map s_ltp ss) ss = ss.
  Proof. induction ss as [| [] ss IH]; [reflexivity |]. cbn [map set_trees]. rewrite IH. reflexivity. Qed.

  Lemma length_sequential rbs mp ef : forall ss resid, length (snd (sequential_stage rbs mp ef resid ss)) = length ss.
  Proof.
    induction ss as [| s ss IH]; intros resid; [reflexivity |]. cbn [sequential_stage].
    destruct (accept_move_and_sample_leaves rbs mp ef resid s) as [r a].
    specialize (IH r). destruct (sequential_stage rbs mp ef r ss) as [r' rest]. cbn [snd length] in *. now rewrite IH.
  Qed.

  Lemma sequential_ext rbs mp ef : forall ss resid,
    sequential_stage rbs mp ef resid ss = sequential_stage rbs mp ef resid ss.
  Proof. reflexivity. Qed.

  Lemma final_zip bits : forall ss aa, length aa = length ss ->
    zip_trees (map a_leaf aa) (map (fun s => t_var (s_tree s)) ss)
      (map3 (apply_moves_to_split_trees bits) (map (fun s => t_split (s_tree s)) ss) (map s_move ss) (map a_to_prune aa))
      (map3 apply_moves_to_leaf_indices (map (fun s => t_idx (s_tree s)) ss) (map s_move ss) (map a_to_prune aa))
      (map (fun s => t_aff (s_tree s)) ss) =
    map2 (final_tree bits) ss aa.
  Proof.
    induction ss as [| s ss IH]; intros [| a aa] L; try discriminate; [reflexivity |].
    cbn [map map2 map3 zip_trees]. f_equal. apply IH. now injection L.
  Qed.

  (** ** Stages *)

  Definition with_trees (b : bart) (ts : list tree) : bart :=
    mkbart ts (resid b) (sigma2 b) (grow_prop_count b) (grow_acc_count b) (prune_prop_count b)
      (prune_acc_count b) (p_nonterminal b) (p_propose_grow b) (sigma2_alpha b) (sigma2_beta b) (max_split b)
      (split_bits b) (y b) (X b) (min_points_per_leaf b) (resid_batch_size b) (count_batch_size b) (ratios b).

  (** after the parallel stage *)
  Definition after_parallel (b : bart) (mv : list move) (ss : list stage1) : bart :=
    mkbart (map s_tree ss) (resid b) (sigma2 b) (count_nonzero (map m_grow mv)) (grow_acc_count b)
      (count_nonzero (map (fun m => m_allowed m && negb (m_grow m)) mv))
      (prune_acc_count b) (p_nonterminal b) (p_propose_grow b) (sigma2_alpha b) (sigma2_beta b) (max_split b)
      (split_bits b) (y b) (X b) (min_points_per_leaf b) (resid_batch_size b) (count_batch_size b) (ratios b).
  (** after the sequential stage: the leaves and the residuals *)
  Definition after_sequential (b : bart) (aa : list stage2) (r : list F) : bart :=
    mkbart (map2 (fun t a => mktree (a_leaf a) (t_var t) (t_split t) (t_idx t) (t_aff t)) (trees b) aa)
      r (sigma2 b) (grow_prop_count b) (grow_acc_count b) (prune_prop_count b)
      (prune_acc_count b) (p_nonterminal b) (p_propose_grow b) (sigma2_alpha b) (sigma2_beta b) (max_split b)
      (split_bits b) (y b) (X b) (min_points_per_leaf b) (resid_batch_size b) (count_batch_size b)
      (match ratios b with None => None | Some _ => Some (map a_ratios aa) end).

  Definition moves_dict0 (mv : list move) : dict :=
    [("moves", VMoves mv); ("partial_ratio", VFloats (map m_partial_ratio mv))]%string.
  Definition moves_dict1 (mv : list move) (ltp : list F) : dict :=
    [("moves", VMoves mv); ("log_trans_prior_ratio", VFloats ltp)]%string.
  Definition moves_dict2 (mv : list move) (ltp : list F) (acc to_prune : list bool) : dict :=
    [("moves", VMoves mv); ("log_trans_prior_ratio", VFloats ltp); ("acc", VBools acc); ("to_prune", VBools to_prune)]%string.

  Lemma sample_moves_ratios {g : rng fo} b q k : sample_moves (set_ratios b q) k = sample_moves b k.
  Proof. reflexivity. Qed.
  Lemma parallel_ratios {g : rng fo} b q mv k : parallel_stage (set_ratios b q) mv k = parallel_stage b mv k.
  Proof. reflexivity. Qed.

  Lemma length_sample_moves {g : rng fo} b k : length (sample_moves b k) = length (trees b).
  Proof.
    unfold sample_moves. rewrite ?map_length, ?length_map2, ?length_enumerate. auto.
  Qed.

  Lemma sample_moves_run {g : rng fo} h a b o r k :
    nth_error h a = Some (bart_dict b o r) -> nth_error h o = Some (opt_dict b) ->
    sample_moves_heap a k h = Some (length h, h ++ [moves_dict0 (sample_moves b k)]).
  Proof.
    intros Ha Ho. unfold sample_moves_heap. rewrite (bind_eq _ _ h _ h (read_bart_eq h a b o r Ha Ho)).
    rewrite sample_moves_ratios. reflexivity.
  Qed.

  Lemma parallel_run {g : rng fo} h a m b o r mv k :
    nth_error h a = Some (bart_dict b o r) -> nth_error h o = Some (opt_dict b) ->
    nth_error h m = Some (moves_dict0 mv) -> length mv = length (trees b) ->
    let ss := parallel_stage b mv k in
    parallel_stage_heap a m k h =
      Some ((length h, length h + 1, ss)%nat,
            h ++ [bart_dict (after_parallel b mv ss) o r; moves_dict1 mv (map s_ltp ss)]).
  Proof.
    intros Ha Ho Hm L ss. unfold parallel_stage_heap.
    rewrite (bind_eq _ _ _ _ _ (copy_eq h a _ Ha)).
    assert (RA : forall d l, nth_error (h ++ d :: l) (length h) = Some d)
      by (intros; rewrite <- (Nat.add_0_r (length h)), nth_error_new; reflexivity).
    assert (UA : forall d d' l, upd (length h) d' (h ++ d :: l) = h ++ d' :: l)
      by (intros; rewrite <- (Nat.add_0_r (length h)) at 1; rewrite upd_app_new; reflexivity).
    set (A := length h) in RA, UA |- *. change (length h) with A.
    assert (RO : forall l, nth_error (h ++ l) o = Some (opt_dict b)) by (intros; now apply nth_error_old).
    assert (RM : forall l, nth_error (h ++ l) m = Some (moves_dict0 mv)) by (intros; now apply nth_error_old).
    rewrite (bind_eq _ _ _ _ _ (read_bart_eq _ A b o r (RA _ _) (RO _))).
    rewrite (bind_eq _ _ _ _ _ (get_eq as_moves _ m "moves" _ _ mv (RM _) eq_refl eq_refl)).
    rewrite parallel_ratios. fold ss.
    do 3 (rewrite (bind_eq _ _ _ _ _ (set_item_eq _ A _ _ _ (RA _ _))), UA).
    destruct (parallel_fields b mv k L) as (F1 & F2 & F3 & F4 & F5). fold ss in F1, F2, F3, F4, F5.
    erewrite bind_eq; [| eapply get_eq; [apply RA | reflexivity | reflexivity]].
    erewrite bind_eq; [| eapply get_item_eq; [apply RO | reflexivity]].
    match goal with |- bind _ _ (h ++ [?D]) = _ => set (D0 := D) end.
    set (D1 := if min_points_per_leaf b then dset D0 "affluence_trees" (VAff (map (fun s => t_aff (s_tree s)) ss)) else D0).
    assert (E1 : match VBool (match min_points_per_leaf b with Some _ => true | None => false end) with
       | VBool true => set_item A "affluence_trees" (VAff (map (fun s => t_aff (s_tree s)) ss))
       | _ => ret tt end (h ++ [D0]) = Some (tt, h ++ [D1])).
    { unfold D1. destruct (min_points_per_leaf b); [| reflexivity].
      rewrite (set_item_eq _ A _ _ _ (RA _ _)). now rewrite UA. }
    erewrite bind_eq; [| exact E1]. clear E1.
    (* complete_ratio *)
    assert (E2 : complete_ratio_heap m (map s_ltp ss) (h ++ [D1]) =
      Some ((A + 1)%nat, h ++ [D1; moves_dict1 mv (map s_ltp ss)])).
    { unfold complete_ratio_heap. rewrite (bind_eq _ _ _ _ _ (copy_eq _ m _ (RM _))).
      rewrite app_length. cbn [length]. rewrite <- app_assoc. cbn [app].
      fold A. set (B := (A + 1)%nat).
      assert (RB : forall d d', nth_error (h ++ [d; d']) B = Some d') by (intros; unfold B, A; now rewrite nth_error_new).
      assert (UB : forall d d' e, upd B e (h ++ [d; d']) = h ++ [d; e]) by (intros; unfold B, A; now rewrite upd_app_new).
      erewrite bind_eq; [| eapply pop_eq; [apply RB | reflexivity]]. rewrite UB.
      rewrite (bind_eq _ _ _ _ _ (set_item_eq _ B _ _ _ (RB _ _))), UB. reflexivity. }
    erewrite bind_eq; [| exact E2]. clear E2.
    do 2 (rewrite (bind_eq _ _ _ _ _ (set_item_eq _ A _ _ _ (RA _ _))), UA).
    unfold ret. do 3 f_equal. f_equal.
    unfold D1, D0. clear D1 D0. unfold after_parallel, bart_dict. cbn [trees resid sigma2 grow_prop_count grow_acc_count
      prune_prop_count prune_acc_count p_nonterminal p_propose_grow sigma2_alpha sigma2_beta max_split split_bits y X
      min_points_per_leaf resid_batch_size count_batch_size ratios].
    rewrite !map_map. rewrite F1, F2.
    destruct (min_points_per_leaf b) eqn:EM; [reflexivity |].
    rewrite F4 by reflexivity. reflexivity.
  Qed.

  Definition set_rat (h : heap) (r : option addr) (aa : list stage2) : heap :=
    match r with Some x => upd x (ratios_dict (map a_ratios aa)) h | None => h end.

  Lemma length_set_rat h r aa : length (set_rat h r aa) = length h.
  Proof. destruct r; [apply length_upd | reflexivity]. Qed.

  Definition rat_ok (h : heap) (b : bart) (rat : option addr) : Prop :=
    match ratios b, rat with
    | None, None => True
    | Some q, Some r => nth_error h r = Some (ratios_dict q)
    | _, _ => False
    end.

  Lemma bart_not_ratios b o r q : bart_dict b o r <> ratios_dict q.
  Proof. discriminate. Qed.
  Lemma opt_not_ratios b q : opt_dict b <> ratios_dict q.
  Proof. discriminate. Qed.

  Lemma after_sequential_trees b aa : length aa = length (trees b) ->
    let ts := map2 (fun t a => mktree (a_leaf a) (t_var t) (t_split t) (t_idx t) (t_aff t)) (trees b) aa in
    map t_leaf ts = map a_leaf aa /\ map t_var ts = map t_var (trees b) /\ map t_split ts = map t_split (trees b) /\
    map t_idx ts = map t_idx (trees b) /\ map t_aff ts = map t_aff (trees b).
  Proof.
    intros L. cbv zeta. repeat split;
      first [apply map_map2_l | apply map_map2_r]; try reflexivity; congruence.
  Qed.

  Lemma sequential_run h a m b o r mv ss :
    nth_error h a = Some (bart_dict b o r) -> nth_error h o = Some (opt_dict b) -> rat_ok h b r ->
    nth_error h m = Some (moves_dict1 mv (map s_ltp ss)) ->
    trees b = map s_tree ss -> mv = map s_move ss ->
    let '(resid', aa) := sequential_stage (resid_batch_size b) (min_points_per_leaf b)
       (exp_factor (zlen (trees b)) (sigma2 b)) (resid b) ss in
    sequential_stage_heap a ss m h =
      Some ((length h, length h + 1),
            set_rat h r aa ++ [bart_dict (after_sequential b aa resid') o r;
              moves_dict2 mv (map s_ltp ss) (map a_acc aa) (map a_to_prune aa)] ++
              match r with None => [[]] | Some _ => [] end).
  Proof.
    intros Ha Ho Hr Hm ET EM.
    pose proof (length_sequential (resid_batch_size b) (min_points_per_leaf b)
       (exp_factor (zlen (trees b)) (sigma2 b)) ss (resid b)) as LA.
    destruct (sequential_stage _ _ _ _ ss) as [resid' aa] eqn:ES. cbn [snd] in LA.
    unfold sequential_stage_heap.
    assert (RA : forall (h' : heap) d l, length h' = length h -> nth_error (h' ++ d :: l) (length h) = Some d)
      by (intros h' d l E; rewrite <- E, <- (Nat.add_0_r (length h')), nth_error_new; reflexivity).
    assert (UA : forall (h' : heap) d d' l, length h' = length h -> upd (length h) d' (h' ++ d :: l) = h' ++ d' :: l)
      by (intros h' d d' l E; rewrite <- E; rewrite <- (Nat.add_0_r (length h')) at 1; rewrite upd_app_new; reflexivity).
    assert (RB : forall (h' : heap) d d' l, length h' = length h -> nth_error (h' ++ d :: d' :: l) (length h + 1) = Some d')
      by (intros h' d d' l E; rewrite <- E, nth_error_new; reflexivity).
    assert (UB : forall (h' : heap) d d' e l, length h' = length h -> upd (length h + 1) e (h' ++ d :: d' :: l) = h' ++ d :: e :: l)
      by (intros h' d d' e l E; rewrite <- E, upd_app_new; reflexivity).
    assert (RO : forall l, nth_error (h ++ l) o = Some (opt_dict b)) by (intros; now apply nth_error_old).
    rewrite (bind_eq _ _ _ _ _ (copy_eq h a _ Ha)).
    rewrite (bind_eq _ _ _ _ _ (copy_eq _ m _ (nth_error_old _ h _ _ Hm))).
    rewrite app_length. cbn [length]. rewrite <- app_assoc. cbn [app].
    set (A := length h) in *. set (B := (A + 1)%nat) in *.
    rewrite (bind_eq _ _ _ _ _ (read_bart_eq _ A b o r (RA h _ _ eq_refl) (RO _))).
    erewrite bind_eq; [| eapply get_eq; [apply (RB h); reflexivity | reflexivity | reflexivity]].
    erewrite bind_eq; [| eapply get_eq; [apply (RB h); reflexivity | reflexivity | reflexivity]].
    cbn [set_ratios trees resid sigma2 resid_batch_size min_points_per_leaf].
    rewrite EM, ET, set_trees_id. rewrite <- ET, ES.
    destruct (after_sequential_trees b aa) as (T1 & T2 & T3 & T4 & T5); [rewrite LA, ET, map_length; reflexivity |].
    erewrite bind_eq; [| apply has_eq; apply (RA h); reflexivity].
    destruct r as [x |].
    - change (dget (bart_dict b o (Some x)) "ratios") with (Some (VRef x)). cbn [set_rat].
      unfold rat_ok in Hr. destruct (ratios b) as [q |] eqn:EQ; [| destruct Hr].
      pose proof (nth_error_lt _ _ _ Hr) as LX.
      do 2 (erewrite bind_eq; [| apply set_item_eq; apply (RA h); reflexivity]; rewrite (UA h) by reflexivity).
      erewrite bind_eq; [| eapply get_eq; [apply (RA h); reflexivity | reflexivity | reflexivity]].
      cbn [update_items].
      erewrite bind_eq; cycle 1.
      { erewrite bind_eq; [| apply set_item_eq; apply nth_error_old; exact Hr].
        rewrite upd_app_old by exact LX.
        erewrite bind_eq; cycle 1.
        { apply set_item_eq. apply nth_error_old. rewrite nth_error_upd by exact LX. now rewrite Nat.eqb_refl. }
        rewrite upd_app_old by (rewrite length_upd; exact LX).
        unfold ret. reflexivity. }
      set (h2 := upd x _ (upd x _ h)).
      assert (E2 : h2 = upd x (ratios_dict (map a_ratios aa)) h).
      { unfold h2. rewrite upd_upd. f_equal. unfold ratios_dict. rewrite !map_map. reflexivity. }
      rewrite E2.
      assert (L2 : length (upd x (ratios_dict (map a_ratios aa)) h) = length h) by apply length_upd.
      do 2 (erewrite bind_eq; [| apply set_item_eq; apply RB; exact L2]; rewrite UB by exact L2).
      unfold ret. do 3 f_equal. f_equal.
      unfold after_sequential, bart_dict. cbn [trees resid sigma2 grow_prop_count grow_acc_count
          prune_prop_count prune_acc_count p_nonterminal p_propose_grow sigma2_alpha sigma2_beta max_split split_bits y X
          min_points_per_leaf resid_batch_size count_batch_size ratios]. rewrite T1, T2, T3, T4, T5. reflexivity.
    - change (dget (bart_dict b o None) "ratios") with (@None (@pyval fo)). cbn [set_rat].
      do 2 (erewrite bind_eq; [| apply set_item_eq; apply (RA h); reflexivity]; rewrite (UA h) by reflexivity).
      erewrite bind_eq; [| reflexivity]. erewrite bind_eq; [| reflexivity].
      rewrite <- app_assoc. cbn [app].
      do 2 (erewrite bind_eq; [| apply set_item_eq; apply (RB h); reflexivity]; rewrite (UB h) by reflexivity).
      unfold ret. do 3 f_equal. f_equal.
      unfold after_sequential, bart_dict. cbn [trees resid sigma2 grow_prop_count grow_acc_count
          prune_prop_count prune_acc_count p_nonterminal p_propose_grow sigma2_alpha sigma2_beta max_split split_bits y X
          min_points_per_leaf resid_batch_size count_batch_size ratios]. rewrite T1, T2, T3, T4, T5. reflexivity.
  Qed.

  Lemma final_fields bits : forall ss aa, length aa = length ss ->
    let ts := map2 (final_tree bits) ss aa in
    map t_leaf ts = map a_leaf aa /\
    map t_var ts = map (fun s => t_var (s_tree s)) ss /\
    map t_split ts = map3 (apply_moves_to_split_trees bits) (map (fun s => t_split (s_tree s)) ss) (map s_move ss) (map a_to_prune aa) /\
    map t_idx ts = map3 apply_moves_to_leaf_indices (map (fun s => t_idx (s_tree s)) ss) (map s_move ss) (map a_to_prune aa) /\
    map t_aff ts = map (fun s => t_aff (s_tree s)) ss.
  Proof.
    intros ss aa L. cbv zeta. split; [| split; [| split; [| split]]].
    - apply map_map2_r; [reflexivity | congruence].
    - apply map_map2_l; [reflexivity | congruence].
    - revert aa L. induction ss as [| s ss IH]; intros [| x aa] L; try discriminate; [reflexivity |].
      cbn [map map2 map3]. f_equal. apply IH. now injection L.
    - revert aa L. induction ss as [| s ss IH]; intros [| x aa] L; try discriminate; [reflexivity |].
      cbn [map map2 map3]. f_equal. apply IH. now injection L.
    - apply map_map2_l; [reflexivity | congruence].
  Qed.

  Lemma accept_run {g : rng fo} h a m b o r mv k :
    nth_error h a = Some (bart_dict b o r) -> nth_error h o = Some (opt_dict b) -> rat_ok h b r ->
    nth_error h m = Some (moves_dict0 mv) -> length mv = length (trees b) ->
    exists a' l, accept_moves_heap a m k h =
      Some (a', match r, ratios (accept_moves_and_sample_leaves b mv k) with
                | Some x, Some q => upd x (ratios_dict q) h
                | _, _ => h
                end ++ l) /\
      nth_error (h ++ l) a' = Some (bart_dict (accept_moves_and_sample_leaves b mv k) o r) /\ length h <= a'.
  Proof.
    intros Ha Ho Hr Hm L. unfold accept_moves_heap.
    set (ss := parallel_stage b mv k).
    rewrite (bind_eq _ _ _ _ _ (parallel_run h a m b o r mv k Ha Ho Hm L)). fold ss.
    set (b1 := after_parallel b mv ss).
    destruct (parallel_fields b mv k L) as (F1 & F2 & F3 & F4 & F5). fold ss in F1, F2, F3, F4, F5.
    set (h1 := h ++ _).
    assert (L1 : length h1 = length h + 2) by (unfold h1; rewrite app_length; reflexivity).
    assert (Ha1 : nth_error h1 (length h) = Some (bart_dict b1 o r)).
    { unfold h1. rewrite <- (Nat.add_0_r (length h)). now rewrite nth_error_new. }
    assert (Hm1 : nth_error h1 (length h + 1) = Some (moves_dict1 mv (map s_ltp ss))).
    { unfold h1. now rewrite nth_error_new. }
    assert (Ho1 : nth_error h1 o = Some (opt_dict b1)).
    { unfold h1. now apply nth_error_old. }
    assert (Hr1 : rat_ok h1 b1 r).
    { unfold rat_ok, h1, b1 in *. cbn [after_parallel ratios]. destruct (ratios b), r; auto. now apply nth_error_old. }
    pose proof (sequential_run h1 (length h) (length h + 1) b1 o r mv ss Ha1 Ho1 Hr1 Hm1 eq_refl (eq_sym F3)) as SR.
    unfold accept_moves_and_sample_leaves. fold ss.
    assert (EF : exp_factor (zlen (trees b1)) (sigma2 b1) = exp_factor (zlen (trees b)) (sigma2 b)).
    { unfold b1. cbn [after_parallel trees sigma2]. unfold zlen. now rewrite map_length, F5. }
    rewrite EF in SR. change (resid_batch_size b1) with (resid_batch_size b) in SR.
    change (min_points_per_leaf b1) with (min_points_per_leaf b) in SR. change (resid b1) with (resid b) in SR.
    pose proof (length_sequential (resid_batch_size b) (min_points_per_leaf b)
       (exp_factor (zlen (trees b)) (sigma2 b)) ss (resid b)) as LA.
    destruct (sequential_stage _ _ _ _ ss) as [resid' aa]. cbn [snd] in LA.
    rewrite (bind_eq _ _ _ _ _ SR). clear SR.
    set (b2 := after_sequential b1 aa resid'). set (dm := moves_dict2 _ _ _ _).
    set (tail := match r with Some _ => [] | None => [[]] end : heap).
    set (h2 := set_rat h1 r aa ++ [bart_dict b2 o r; dm] ++ tail).
    assert (LS : length (set_rat h1 r aa) = length h1) by apply length_set_rat.
    assert (Ha2 : nth_error h2 (length h1) = Some (bart_dict b2 o r)).
    { unfold h2. rewrite <- LS. rewrite <- (Nat.add_0_r (length _)). now rewrite nth_error_new. }
    assert (Hm2 : nth_error h2 (length h1 + 1) = Some dm).
    { unfold h2. rewrite <- LS. now rewrite nth_error_new. }
    assert (Ho2 : nth_error h2 o = Some (opt_dict b2)).
    { unfold h2. apply nth_error_old. destruct r as [x |]; [| exact Ho1]. cbn [set_rat].
      unfold rat_ok in Hr1. destruct (ratios b1) as [q |]; [| destruct Hr1].
      rewrite nth_error_upd by (now apply nth_error_lt in Hr1).
      destruct (Nat.eqb_spec o x) as [-> | _]; [| exact Ho1].
      exfalso. apply (opt_not_ratios b1 q). congruence. }
    (* final stage *)
    unfold final_stage_heap. rewrite (bind_eq _ _ _ _ _ (copy_eq h2 _ _ Ha2)).
    assert (RA : forall d l, nth_error (h2 ++ d :: l) (length h2) = Some d)
      by (intros; rewrite <- (Nat.add_0_r (length h2)), nth_error_new; reflexivity).
    assert (UA : forall d d' l, upd (length h2) d' (h2 ++ d :: l) = h2 ++ d' :: l)
      by (intros; rewrite <- (Nat.add_0_r (length h2)) at 1; rewrite upd_app_new; reflexivity).
    rewrite (bind_eq _ _ _ _ _ (read_bart_eq _ _ b2 o r (RA _ _) (nth_error_old _ _ _ _ Ho2))).
    do 3 (erewrite bind_eq; [| eapply get_eq; [apply nth_error_old; exact Hm2 | reflexivity | reflexivity]]).
    do 4 (erewrite bind_eq; [| apply set_item_eq; apply RA]; rewrite UA).
    match goal with |- context [ret _ (h2 ++ [?D])] => set (D3 := D) end.
    set (b3 := mkbart _ _ _ _ _ _ _ _ _ _ _ _ _ _ _ _ _ _ _).
    assert (ED : D3 = bart_dict b3 o r).
    { unfold D3, b3, b2, b1, after_sequential, after_parallel, set_ratios, bart_dict, flag.
      cbn [trees resid sigma2 grow_prop_count grow_acc_count
        prune_prop_count prune_acc_count p_nonterminal p_propose_grow sigma2_alpha sigma2_beta max_split split_bits y X
        min_points_per_leaf resid_batch_size count_batch_size ratios].
      destruct (final_fields (split_bits b) ss aa LA) as (G1 & G2 & G3 & G4 & G5).
      destruct (after_sequential_trees b1 aa) as (T1 & T2 & T3 & T4 & T5).
      { unfold b1. cbn [after_parallel trees]. rewrite map_length. exact LA. }
      cbn [b1 after_parallel trees] in T1, T2, T3, T4, T5.
      rewrite G1, G2, G3, G4, G5, T1, T2, T3, T4, T5. rewrite !map_map. rewrite F3.
      assert (M2 : forall f : bool -> move -> bool, map2 f (map a_acc aa) mv = map2 (fun a m => f (a_acc a) m) aa mv).
      { intros f. clear. revert mv. induction aa as [| x aa IH]; intros [| y mv]; try reflexivity. cbn [map map2]. now rewrite IH. }
      rewrite (M2 (fun a m => a && m_grow m)%bool), (M2 (fun a m => a && negb (m_grow m))%bool).
      reflexivity. }
    exists (length h2), ([bart_dict b1 o r; moves_dict1 mv (map s_ltp ss)] ++ [bart_dict b2 o r; dm] ++ tail ++ [D3]).
    split; [| split].
    - unfold ret. f_equal. f_equal. unfold h2. rewrite <- !app_assoc.
      assert (EH : set_rat h1 r aa = match r, ratios b3 with Some x, Some q => upd x (ratios_dict q) h | _, _ => h end
                 ++ [bart_dict b1 o r; moves_dict1 mv (map s_ltp ss)]).
      { unfold h1, b3. cbn [ratios]. unfold rat_ok in Hr. destruct r as [x |]; [| reflexivity].
        cbn [set_rat]. destruct (ratios b) as [q |]; [| destruct Hr].
        apply upd_app_old. now apply nth_error_lt in Hr. }
      rewrite EH. rewrite <- !app_assoc. reflexivity.
    - rewrite <- ED. unfold h2.
      rewrite !app_length, LS, L1. cbn [length].
      replace (length h + 2 + (2 + length tail)) with (length h + (4 + length tail)) by lia. rewrite nth_error_new.
      unfold tail. destruct r; reflexivity.
    - unfold h2. rewrite app_length, LS, L1. lia.
  Qed.

  (** the whole step *)
  Lemma step_run {g : rng fo} h a b o r k :
    nth_error h a = Some (bart_dict b o r) -> nth_error h o = Some (opt_dict b) -> rat_ok h b r ->
    exists a' l, step_heap a k h =
      Some (a', match r, ratios (step b k) with
                | Some x, Some q => upd x (ratios_dict q) h
                | _, _ => h
                end ++ l) /\
      nth_error (h ++ l) a' = Some (bart_dict (step b k) o r) /\ length h <= a'.
  Proof.
    intros Ha Ho Hr. unfold step_heap, sample_trees_heap.
    set (k1 := KSplit k 2 1). set (mv := sample_moves b (KSplit k1 2 1)).
    assert (E0 : exists a' l, bind (sample_moves_heap a (KSplit k1 2 1))
        (fun moves => accept_moves_heap a moves (KSplit k1 2 0)) h =
      Some (a', match r, ratios (sample_trees b k1) with
                | Some x, Some q => upd x (ratios_dict q) h
                | _, _ => h
                end ++ l) /\
      nth_error (h ++ l) a' = Some (bart_dict (sample_trees b k1) o r) /\ length h <= a').
    { rewrite (bind_eq _ _ _ _ _ (sample_moves_run h a b o r _ Ha Ho)). fold mv.
      destruct (accept_run (h ++ [moves_dict0 mv]) a (length h) b o r mv (KSplit k1 2 0)) as (a' & l & E1 & E2 & E3).
      - now apply nth_error_old.
      - now apply nth_error_old.
      - unfold rat_ok in *. destruct (ratios b), r; auto. now apply nth_error_old.
      - rewrite <- (Nat.add_0_r (length h)). now rewrite nth_error_new.
      - apply length_sample_moves.
      - exists a', (moves_dict0 mv :: l). fold (sample_trees b k1) in E1, E2.
        change (accept_moves_and_sample_leaves b mv (KSplit k1 2 0)) with (sample_trees b k1) in E1, E2.
        split; [| split].
        + rewrite E1. f_equal. f_equal.
          unfold rat_ok in Hr. destruct r as [x |]; [destruct (ratios (sample_trees b k1)) as [q |] |].
          * destruct (ratios b); [| destruct Hr]. rewrite upd_app_old by (now apply nth_error_lt in Hr).
            now rewrite <- app_assoc.
          * now rewrite <- app_assoc.
          * now rewrite <- app_assoc.
        + now rewrite <- app_assoc in E2.
        + rewrite app_length in E3. cbn [length] in E3. lia. }
    destruct E0 as (a1 & l1 & E1 & E2 & E3). rewrite (bind_eq _ _ _ _ _ E1).
    set (bt := sample_trees b k1) in *. set (h1 := match r with Some _ => _ | None => _ end ++ l1).
    assert (LH : length h1 = length (h ++ l1)).
    { unfold h1. rewrite !app_length. f_equal. destruct r; [destruct (ratios bt) |]; try reflexivity. apply length_upd. }
    assert (H1 : nth_error h1 a1 = Some (bart_dict bt o r)).
    { unfold h1. rewrite <- E2. rewrite !nth_error_app2; try exact E3.
      - destruct r; [destruct (ratios bt) |]; try reflexivity. now rewrite length_upd.
      - destruct r; [destruct (ratios bt) |]; try exact E3. now rewrite length_upd. }
    unfold sample_sigma_heap. rewrite (bind_eq _ _ _ _ _ (copy_eq h1 _ _ H1)).
    assert (RA : forall d l, nth_error (h1 ++ d :: l) (length h1) = Some d)
      by (intros; rewrite <- (Nat.add_0_r (length h1)), nth_error_new; reflexivity).
    assert (UA : forall d d' l, upd (length h1) d' (h1 ++ d :: l) = h1 ++ d' :: l)
      by (intros; rewrite <- (Nat.add_0_r (length h1)) at 1; rewrite upd_app_new; reflexivity).
    do 3 (erewrite bind_eq; [| eapply get_eq; [apply RA | reflexivity | reflexivity]]).
    erewrite bind_eq; [| apply set_item_eq; apply RA]. rewrite UA.
    match goal with |- context [ret _ (h1 ++ [?D])] => set (D4 := D) end.
    assert (ED : D4 = bart_dict (step b k) o r) by reflexivity.
    exists (length h1), (l1 ++ [D4]). split; [| split].
    - unfold ret. f_equal. f_equal. unfold h1.
      change (ratios (step b k)) with (ratios bt). now rewrite <- app_assoc.
    - rewrite <- ED, LH. rewrite app_assoc. rewrite <- (Nat.add_0_r (length (h ++ l1))). now rewrite nth_error_new.
    - rewrite LH, app_length. lia.
  Qed.

  (** ** Summary *)

  Definition frame (r : option addr) (h h' : heap) : Prop :=
    forall x d, Some x <> r -> nth_error h x = Some d -> nth_error h' x = Some d.

  Lemma represents_inv h a b : represents h a b <->
    exists o r, nth_error h a = Some (bart_dict b o r) /\ nth_error h o = Some (opt_dict b) /\ rat_ok h b r.
  Proof. reflexivity. Qed.

  Lemma rat_other h b a o r x : rat_ok h b r -> nth_error h a = Some (bart_dict b o r) ->
    nth_error h o = Some (opt_dict b) -> r = Some x -> x <> a /\ x <> o /\ x < length h.
  Proof.
    intros Hr Ha Ho ->. unfold rat_ok in Hr. destruct (ratios b) as [q |]; [| destruct Hr].
    repeat split.
    - intros E. subst x. rewrite Ha in Hr. discriminate.
    - intros E. subst x. rewrite Ho in Hr. discriminate.
    - now apply nth_error_lt in Hr.
  Qed.

  Lemma opt_dict_step {g : rng fo} b k : opt_dict (step b k) = opt_dict b.
  Proof.
    unfold step, sample_sigma, sample_trees, accept_moves_and_sample_leaves.
    destruct (sequential_stage _ _ _ _ _) as [rr aa]. reflexivity.
  Qed.

  Lemma step_summary {g : rng fo} h a b o r k :
    nth_error h a = Some (bart_dict b o r) -> nth_error h o = Some (opt_dict b) -> rat_ok h b r ->
    exists a' h', step_heap a k h = Some (a', h') /\
      nth_error h' a' = Some (bart_dict (step b k) o r) /\ nth_error h' o = Some (opt_dict (step b k)) /\
      rat_ok h' (step b k) r /\ frame r h h' /\ length h <= a' /\ length h <= length h'.
  Proof.
    intros Ha Ho Hr. destruct (step_run h a b o r k Ha Ho Hr) as (a' & l & E1 & E2 & E3).
    pose proof (fun x => rat_other h b a o r x Hr Ha Ho) as RX.
    set (h0 := match r with Some _ => _ | None => _ end) in E1.
    assert (ER : match ratios b with None => ratios (step b k) = None | Some _ => exists q, ratios (step b k) = Some q end).
    { unfold step, sample_sigma, sample_trees, accept_moves_and_sample_leaves. cbn [set_sigma2 ratios].
      destruct (sequential_stage _ _ _ _ _) as [rr aa]. cbn [ratios]. destruct (ratios b); eauto. }
    assert (L0 : length h0 = length h).
    { unfold h0. destruct r; [destruct (ratios (step b k)) |]; try reflexivity. apply length_upd. }
    assert (FR : frame r h h0).
    { intros x d N H. unfold h0. destruct r as [z |]; [| exact H]. destruct (ratios (step b k)); [| exact H].
      rewrite nth_error_upd by (now apply (RX z)). destruct (Nat.eqb_spec x z); [congruence | exact H]. }
    exists a', (h0 ++ l). split; [exact E1 |]. split; [| split; [| split; [| split; [| split]]]].
    - rewrite nth_error_app2 in * by lia. rewrite L0. exact E2.
    - rewrite opt_dict_step. apply nth_error_old. apply FR; [| exact Ho]. intros E. symmetry in E. now apply RX in E.
    - unfold rat_ok in *. destruct r as [x |], (ratios b) as [q |]; try contradiction.
      + destruct ER as [q' ER]. unfold h0 in *. rewrite ER in *. apply nth_error_old.
        rewrite nth_error_upd by (now apply (RX x)). now rewrite Nat.eqb_refl.
      + now rewrite ER.
    - intros x d N H. apply nth_error_old. now apply FR.
    - exact E3.
    - rewrite app_length, L0. lia.
  Qed.

  Lemma frame_trans r h1 h2 h3 : frame r h1 h2 -> frame r h2 h3 -> frame r h1 h3.
  Proof. intros A B x d N H. apply B; [exact N |]. now apply A. Qed.

  Lemma last_states {g : rng fo} b ks d : last (states b ks) d = fold_left step ks b.
  Proof.
    revert b. induction ks as [| k ks IH]; intros b; [reflexivity |]. cbn [states fold_left].
    rewrite <- IH. destruct (states (step b k) ks) eqn:E; [destruct ks; discriminate |]. reflexivity.
  Qed.

  Lemma bart_dict_ratios b q o r : bart_dict (set_ratios b q) o r = bart_dict b o r.
  Proof. reflexivity. Qed.

  Lemma steps_summary {g : rng fo} o r ks : forall h a b,
    nth_error h a = Some (bart_dict b o r) -> nth_error h o = Some (opt_dict b) -> rat_ok h b r ->
    exists l h', steps_heap a ks h = Some (l, h') /\ frame r h h' /\ rat_ok h' (fold_left step ks b) r /\
      Forall2 (fun a b => nth_error h' a = Some (bart_dict b o r) /\ nth_error h' o = Some (opt_dict b)) l (states b ks).
  Proof.
    induction ks as [| k ks IH]; intros h a b Ha Ho Hr.
    - exists [a], h. cbn [steps_heap states fold_left]. split; [reflexivity |]. split; [now intros x d _ H |].
      split; [exact Hr |]. constructor; [now split | constructor].
    - destruct (step_summary h a b o r k Ha Ho Hr) as (a1 & h1 & E1 & Ha1 & Ho1 & Hr1 & F1 & _ & _).
      destruct (IH h1 a1 (step b k) Ha1 Ho1 Hr1) as (l & h' & E2 & F2 & Hr2 & FA).
      exists (a :: l), h'. cbn [steps_heap states fold_left].
      rewrite (bind_eq _ _ _ _ _ E1), (bind_eq _ _ _ _ _ E2). split; [reflexivity |].
      pose proof (frame_trans r _ _ _ F1 F2) as FF. split; [exact FF |]. split; [exact Hr2 |].
      constructor; [| exact FA].
      pose proof (fun x => rat_other h b a o r x Hr Ha Ho) as RX.
      split; (apply FF; [| assumption]); intros E; symmetry in E; now apply RX in E.
  Qed.

  Lemma rebuild_run h a b o r : nth_error h a = Some (bart_dict b o r) -> rat_ok h b r ->
    exists a' r' l, rebuild a h = Some (a', h ++ l) /\ nth_error (h ++ l) a' = Some (bart_dict b o r') /\
      rat_ok (h ++ l) b r' /\ (forall x, r' = Some x -> length h <= x) /\ length h <= a'.
  Proof.
    intros Ha Hr. unfold rebuild. rewrite (bind_eq _ _ _ _ _ (copy_eq h a _ Ha)).
    assert (RA : forall d l, nth_error (h ++ d :: l) (length h) = Some d)
      by (intros; rewrite <- (Nat.add_0_r (length h)), nth_error_new; reflexivity).
    assert (UA : forall d d' l, upd (length h) d' (h ++ d :: l) = h ++ d' :: l)
      by (intros; rewrite <- (Nat.add_0_r (length h)) at 1; rewrite upd_app_new; reflexivity).
    rewrite (bind_eq _ _ _ _ _ (has_eq _ _ "ratios" _ (RA _ _))).
    unfold rat_ok in *. destruct (ratios b) as [q |], r as [x |]; try contradiction.
    - change (dget (bart_dict b o (Some x)) "ratios") with (Some (VRef x)).
      cbv iota. erewrite bind_eq; [| eapply get_eq; [apply RA | reflexivity | reflexivity]].
      erewrite bind_eq; [| apply copy_eq; apply nth_error_old; exact Hr].
      rewrite <- app_assoc. cbn [app].
      erewrite bind_eq; [| apply set_item_eq; apply RA]. rewrite UA.
      exists (length h), (Some (length (h ++ [bart_dict b o (Some x)]))). eexists. split; [reflexivity |].
      split; [rewrite RA; reflexivity |]. rewrite app_length. cbn [length]. split.
      + now rewrite nth_error_new.
      + split; [intros z [= <-]; lia | lia].
    - change (dget (bart_dict b o None) "ratios") with (@None (@pyval fo)). cbv iota.
      exists (length h), None. eexists. split; [reflexivity |]. split; [apply RA |]. split; [exact I |].
      split; [discriminate | lia].
  Qed.

  Lemma traced_run {g : rng fo} h a b k : represents h a b ->
    exists a' h', traced_call (fun a => step_heap a k) a h = Some (a', h') /\ represents h' a' (step b k) /\
      unchanged h h' /\ new_in h a'.
  Proof.
    rewrite represents_inv. intros (o & r & Ha & Ho & Hr). unfold traced_call.
    destruct (rebuild_run h a b o r Ha Hr) as (a1 & r1 & l1 & E1 & Ha1 & Hr1 & N1 & N2).
    rewrite (bind_eq _ _ _ _ _ E1).
    destruct (step_summary (h ++ l1) a1 b o r1 k Ha1 (nth_error_old _ _ _ _ Ho) Hr1)
      as (a2 & h2 & E2 & Ha2 & Ho2 & Hr2 & F2 & N3 & N4).
    rewrite (bind_eq _ _ _ _ _ E2).
    destruct (rebuild_run h2 a2 (step b k) o r1 Ha2 Hr2) as (a3 & r3 & l3 & E3 & Ha3 & Hr3 & N5 & N6).
    exists a3, (h2 ++ l3). split; [exact E3 |]. split; [| split].
    - rewrite represents_inv. exists o, r3. split; [exact Ha3 |]. split; [now apply nth_error_old | exact Hr3].
    - intros x d Hx. apply nth_error_old. apply F2; [| now apply nth_error_old].
      intros E. symmetry in E. apply N1 in E. apply nth_error_lt in Hx. lia.
    - unfold new_in. apply nth_error_None. rewrite app_length in *. lia.
  Qed.

  Lemma init_run h b : exists a h', init_heap b h = Some (a, h') /\ represents h' a b /\ unchanged h h'.
  Proof.
    unfold init_heap. erewrite bind_eq; [| reflexivity]. erewrite bind_eq; [| reflexivity].
    rewrite app_length. cbn [length]. rewrite <- app_assoc. cbn [app].
    assert (RA : forall d d' l, nth_error (h ++ d :: d' :: l) (length h + 1) = Some d') by (intros; now rewrite nth_error_new).
    assert (RO : forall d l, nth_error (h ++ d :: l) (length h) = Some d)
      by (intros; rewrite <- (Nat.add_0_r (length h)), nth_error_new; reflexivity).
    destruct (ratios b) as [q |] eqn:EQ.
    - assert (E : bind (new_dict (ratios_dict q)) (fun rat => set_item (length h + 1) "ratios" (VRef rat))
        (h ++ [opt_dict b; bart_dict b (length h) None]) =
        Some (tt, h ++ [opt_dict b; bart_dict b (length h) (Some (length h + 2)); ratios_dict q])).
      { erewrite bind_eq; [| reflexivity]. rewrite app_length. cbn [length]. rewrite <- app_assoc. cbn [app].
        rewrite (set_item_eq _ _ _ _ _ (RA _ _ _)). rewrite upd_app_new. reflexivity. }
      erewrite bind_eq; [| exact E]. unfold ret. eexists _, _. split; [reflexivity |]. split.
      + rewrite represents_inv. exists (length h), (Some (length h + 2)).
        split; [apply RA |]. split; [apply RO |]. unfold rat_ok. rewrite EQ. now rewrite nth_error_new.
      + intros x d H. now apply nth_error_old.
    - erewrite bind_eq; [| reflexivity]. unfold ret. eexists _, _. split; [reflexivity |]. split.
      + rewrite represents_inv. exists (length h), None.
        split; [apply RA |]. split; [apply RO |]. unfold rat_ok. now rewrite EQ.
      + intros x d H. now apply nth_error_old.
  Qed.

  Lemma represents_ratios h a b b' : represents h a b -> represents h a b' -> ratios b = ratios b'.
  Proof.
    rewrite !represents_inv. intros (o & r & Ha & Ho & Hr) (o' & r' & Ha' & Ho' & Hr').
    rewrite Ha in Ha'. assert (ER : r = r').
    { assert (E : dget (bart_dict b o r) "ratios" = dget (bart_dict b' o' r') "ratios") by congruence.
      destruct r, r'; cbn in E; congruence. }
    subst r'. unfold rat_ok in *. destruct (ratios b) as [q |], (ratios b') as [q' |], r as [x |]; try contradiction; auto.
    rewrite Hr in Hr'. unfold ratios_dict in Hr'. injection Hr' as E1 E2. f_equal.
    clear -E1 E2. revert q' E1 E2. induction q as [| [u v] q IH]; intros [| [u' v'] q'] E1 E2; try discriminate; [reflexivity |].
    cbn [map fst snd] in *. injection E1 as -> E1. injection E2 as -> E2. f_equal. now apply IH.
  Qed.
End ProofHeap.
