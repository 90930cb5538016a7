(** Broadcasting and vectorisation of the quantile of the inverse gamma (C54). *)
From Coq Require Import List Arith Bool Lia.
From Verif Require Import SpecCallback ModelCallback.
Import ListNotations.

(** ** Lists and axes *)
Lemma axes_ext s t : length s = length t -> (forall i, axis s i = axis t i) -> s = t.
Proof.
  intros L H. rewrite <- (rev_involutive s), <- (rev_involutive t). f_equal.
  apply (nth_ext _ _ 1 1); [rewrite !rev_length; exact L |]. intros i _. apply H.
Qed.
Lemma common_unique s t u u' : common_shape s t u -> common_shape s t u' -> u = u'.
Proof. intros [L H] [L' H']. apply axes_ext; [congruence |]. intros i. now rewrite H, H'. Qed.
Lemma source_unique s idx j j' : source s idx j -> source s idx j' -> j = j'.
Proof.
  intros [L H] [L' H']. rewrite <- (rev_involutive j), <- (rev_involutive j'). f_equal.
  apply (nth_ext _ _ 0 0); [rewrite !rev_length; congruence |]. intros i _.
  change (position j i = position j' i). now rewrite H, H'.
Qed.
Lemma axis_pad k s i : axis (repeat 1 k ++ s) i = axis s i.
Proof.
  unfold axis. rewrite rev_app_distr.
  destruct (Nat.lt_ge_cases i (length (rev s))) as [L | L].
  - now rewrite app_nth1.
  - rewrite app_nth2 by lia. rewrite (nth_overflow (rev s)) by lia.
    destruct (Nat.lt_ge_cases (i - length (rev s)) (length (rev (repeat 1 k)))) as [L' | L'].
    + apply (repeat_spec k). apply in_rev. now apply nth_In.
    + now rewrite nth_overflow by lia.
Qed.
Lemma axis_cons n s i : axis (n :: s) i = if i =? length s then n else axis s i.
Proof.
  unfold axis. cbn [rev]. destruct (Nat.eqb_spec i (length s)) as [-> | N].
  - rewrite app_nth2, rev_length, Nat.sub_diag by (rewrite rev_length; lia). reflexivity.
  - destruct (Nat.lt_ge_cases i (length s)) as [L | L].
    + now rewrite app_nth1 by (rewrite rev_length; lia).
    + rewrite !nth_overflow; rewrite ?app_length, ?rev_length; cbn; auto; lia.
Qed.

(** ** Shapes *)
Lemma broadcast_rev_spec : forall s t,
  match broadcast_rev s t with
  | Some u => length u = Nat.max (length s) (length t) /\
      (forall i, nth i u 1 = if nth i s 1 =? 1 then nth i t 1 else nth i s 1) /\
      (forall i, nth i s 1 = nth i t 1 \/ nth i s 1 = 1 \/ nth i t 1 = 1)
  | None => exists i, nth i s 1 <> nth i t 1 /\ nth i s 1 <> 1 /\ nth i t 1 <> 1
  end.
Proof.
  induction s as [| m s IH]; intros t.
  - assert (E : broadcast_rev [] t = Some t) by (destruct t; reflexivity). rewrite E. split; [reflexivity |].
    split; intros [| i]; cbn; auto.
  - destruct t as [| n t].
    + cbn [broadcast_rev]. split; [cbn; lia |]. split; intros [| i]; cbn; auto.
      * destruct (Nat.eqb_spec m 1); auto.
      * destruct (Nat.eqb_spec (nth i s 1) 1); auto.
    + cbn [broadcast_rev]. specialize (IH t). destruct (broadcast_rev s t) as [u |].
      * destruct IH as (L & H & C).
        assert (G : forall w, (w = if m =? 1 then n else m) -> (m = n \/ m = 1 \/ n = 1) ->
          length (w :: u) = Nat.max (length (m :: s)) (length (n :: t)) /\
          (forall i, nth i (w :: u) 1 = if nth i (m :: s) 1 =? 1 then nth i (n :: t) 1 else nth i (m :: s) 1) /\
          (forall i, nth i (m :: s) 1 = nth i (n :: t) 1 \/ nth i (m :: s) 1 = 1 \/ nth i (n :: t) 1 = 1)).
        { intros w -> D. split; [cbn; lia |]. split; intros [| i]; cbn; auto. }
        destruct (Nat.eqb_spec m n) as [-> | N1]; [apply G; [destruct (Nat.eqb_spec n 1); congruence | auto] |].
        destruct (Nat.eqb_spec m 1) as [-> | N2]; [apply G; auto |].
        destruct (Nat.eqb_spec n 1) as [-> | N3]; [apply G; auto |].
        exists 0. cbn. auto.
      * destruct IH as (i & H). exists (S i). exact H.
Qed.
Lemma broadcast_shapes_spec s t :
  match broadcast_shapes s t with
  | Some u => common_shape s t u /\ compatible s t
  | None => ~ compatible s t
  end.
Proof.
  unfold broadcast_shapes. pose proof (broadcast_rev_spec (rev s) (rev t)) as H.
  destruct (broadcast_rev (rev s) (rev t)) as [u |]; cbn [option_map].
  - destruct H as (L & H & C). rewrite !rev_length in L. split; [split |].
    + now rewrite rev_length.
    + intros i. unfold axis at 1. rewrite rev_involutive. apply H.
    + exact C.
  - intros C. destruct H as (i & N1 & N2 & N3). destruct (C i) as [E | [E | E]]; unfold axis in E; congruence.
Qed.
Lemma broadcast_shapes_eq s t u : common_shape s t u -> compatible s t -> broadcast_shapes s t = Some u.
Proof.
  intros H C. pose proof (broadcast_shapes_spec s t) as B. destruct (broadcast_shapes s t) as [u' |]; [| contradiction].
  f_equal. eapply common_unique; [apply B | exact H].
Qed.

(** ** Indices *)
Lemma clip_length s idx : length s <= length idx -> length (clip_index s idx) = length s.
Proof. intros H. unfold clip_index. rewrite map_length, combine_length, skipn_length. lia. Qed.
Lemma clip_same s idx : length idx = length s ->
  clip_index s idx = map (fun nk => if fst nk =? 1 then 0 else snd nk) (combine s idx).
Proof. intros H. unfold clip_index. now rewrite H, Nat.sub_diag. Qed.
Lemma clip_cons n s i idx : length idx = length s ->
  clip_index (n :: s) (i :: idx) = (if n =? 1 then 0 else i) :: clip_index s idx.
Proof. intros H. rewrite !clip_same by (cbn; auto). reflexivity. Qed.
Lemma clip_drop s i idx : length s <= length idx -> clip_index s (i :: idx) = clip_index s idx.
Proof.
  intros H. unfold clip_index. assert (E : length (i :: idx) - length s = S (length idx - length s)) by (cbn [length]; lia).
  rewrite E. reflexivity.
Qed.
Lemma clip_pad k s : forall idx, length idx = k + length s ->
  skipn k (clip_index (repeat 1 k ++ s) idx) = clip_index s idx.
Proof.
  induction k as [| k IH]; intros idx H; [reflexivity |].
  destruct idx as [| i idx]; [discriminate |]. cbn [repeat app].
  rewrite clip_cons by (rewrite app_length, repeat_length; cbn in H; lia).
  cbn [skipn]. rewrite IH by (cbn in H; lia). symmetry. apply clip_drop. cbn in H. lia.
Qed.
Lemma clip_axis s : forall idx, length idx = length s -> forall i,
  position (clip_index s idx) i = if axis s i =? 1 then 0 else position idx i.
Proof.
  induction s as [| n s IH]; intros idx H i.
  - destruct idx; [| discriminate]. unfold axis, position. cbn. destruct i; reflexivity.
  - destruct idx as [| k idx]; [discriminate |]. injection H as H. rewrite clip_cons by exact H.
    rewrite axis_cons. unfold position. cbn [rev].
    assert (L : length (clip_index s idx) = length s) by (apply clip_length; lia).
    destruct (Nat.eqb_spec i (length s)) as [-> | N].
    + rewrite !app_nth2 by (rewrite rev_length; lia). rewrite !rev_length, L, H, Nat.sub_diag. reflexivity.
    + destruct (Nat.lt_ge_cases i (length s)) as [Q | Q].
      * rewrite !app_nth1 by (rewrite rev_length; lia). apply IH. exact H.
      * rewrite !nth_overflow by (rewrite app_length, rev_length; cbn; lia). destruct (axis s i =? 1); reflexivity.
Qed.
Lemma position_app p idx i : i < length idx -> position (p ++ idx) i = position idx i.
Proof. intros H. unfold position. rewrite rev_app_distr, app_nth1; [reflexivity | rewrite rev_length; lia]. Qed.
Lemma clip_source s idx : length s <= length idx -> source s idx (clip_index s idx).
Proof.
  intros H. split; [now apply clip_length |]. intros i.
  set (p := firstn (length idx - length s) idx). set (q := skipn (length idx - length s) idx).
  assert (E : idx = p ++ q) by (symmetry; apply firstn_skipn).
  assert (Q : length q = length s) by (unfold q; rewrite skipn_length; lia).
  assert (C : clip_index s idx = clip_index s q) by (rewrite (clip_same s q Q); reflexivity).
  rewrite C, (clip_axis s q Q). destruct (Nat.eqb_spec (axis s i) 1) as [| N]; [reflexivity |].
  rewrite E. symmetry. apply position_app. rewrite Q. destruct (Nat.lt_ge_cases i (length s)) as [| O]; auto.
  exfalso. apply N. unfold axis. apply nth_overflow. rewrite rev_length. lia.
Qed.

(** ** The functions *)
Lemma common_pad s t u : common_shape s t u ->
  common_shape (repeat 1 (length u - length s) ++ s) (repeat 1 (length u - length t) ++ t) u.
Proof.
  intros [L H]. split.
  - rewrite !app_length, !repeat_length. lia.
  - intros i. rewrite !axis_pad. apply H.
Qed.
Lemma compatible_pad k l s t : compatible s t -> compatible (repeat 1 k ++ s) (repeat 1 l ++ t).
Proof. intros C i. rewrite !axis_pad. apply C. Qed.

Section Functions.
  Context {A B C D : Type} (f : A -> B -> C) (cast : C -> D).

  Lemma gammainccinv_eq (a : array A) (y : array B) :
    match broadcast_shapes (shape a) (shape y) with
    | None => gammainccinv f cast a y = None
    | Some s => exists r, gammainccinv f cast a y = Some r /\ shape r = s /\
        forall idx, length idx = length s ->
          get r idx = cast (f (get a (clip_index (shape a) idx)) (get y (clip_index (shape y) idx)))
    end.
  Proof.
    unfold gammainccinv, pure_callback_ufunc. pose proof (broadcast_shapes_spec (shape a) (shape y)) as H.
    destruct (broadcast_shapes (shape a) (shape y)) as [s |]; [| reflexivity].
    destruct H as [H K]. unfold pure_callback, ufunc.
    cbn [shape expand_dims]. rewrite (broadcast_shapes_eq _ _ s (common_pad _ _ _ H) (compatible_pad _ _ _ _ K)).
    cbn [option_map shape get]. destruct (list_eq_dec Nat.eq_dec s s) as [_ |]; [| contradiction].
    eexists. split; [reflexivity |]. split; [reflexivity |]. intros idx L. cbn [get].
    unfold broadcast_get. cbn [get shape expand_dims]. destruct H as [H _].
    rewrite !clip_pad by lia. reflexivity.
  Qed.

  (** C54. The quantile function broadcasts its arguments like numpy does, for
      arrays with any number of axes, and fails if the shapes are not compatible. *)
  Theorem C54_broadcast : forall (a : array A) (y : array B),
    (compatible (shape a) (shape y) ->
       exists r, gammainccinv f cast a y = Some r /\ elementwise (fun p q => cast (f p q)) a y r) /\
    (~ compatible (shape a) (shape y) -> gammainccinv f cast a y = None).
  Proof.
    intros a y. pose proof (gammainccinv_eq a y) as G. pose proof (broadcast_shapes_spec (shape a) (shape y)) as H.
    destruct (broadcast_shapes (shape a) (shape y)) as [s |]; [| now split].
    destruct H as [H K]. split; [intros _ | contradiction].
    destruct G as (r & E & S & V). exists r. split; [exact E |]. split; [now rewrite S |].
    intros idx ja jy I Ja Jy. rewrite S in I.
    assert (L : length idx = length s) by (clear -I; induction I; cbn; auto).
    rewrite (V idx L). destruct H as [H _].
    rewrite (source_unique _ _ _ _ Ja (clip_source (shape a) idx ltac:(lia))).
    rewrite (source_unique _ _ _ _ Jy (clip_source (shape y) idx ltac:(lia))). reflexivity.
  Qed.

  (** ** vmap *)
  Definition mapped {X} (v : varg X) : bool := match v with Mapped _ => true | Unmapped _ => false end.
  Definition size_ok {X} (n : nat) (v : varg X) : Prop :=
    match v with Mapped x => exists s, shape x = n :: s | Unmapped _ => True end.
  Lemma seen_shape_eq {X} i (v : varg X) : shape (seen i v) = seen_shape v.
  Proof. destruct v; reflexivity. Qed.

  Definition lead {X} (expand : bool) (n : nat) (v : varg X) : list nat :=
    match v with Mapped _ => [n] | Unmapped _ => if expand then [1] else [] end.
  Lemma whole_shape {X} expand n k (v : varg X) : size_ok n v ->
    shape (whole expand (vmap_expand_dims k v)) = lead expand n v ++ repeat 1 k ++ seen_shape v.
  Proof. destruct v as [x | x]; cbn; [intros [s E]; now rewrite E | destruct expand; reflexivity]. Qed.
  Lemma whole_get {X} expand n k (v : varg X) i idx : size_ok n v -> i < n -> length idx = k + length (seen_shape v) ->
    broadcast_get (whole expand (vmap_expand_dims k v)) (i :: idx) = get (seen i v) (clip_index (seen_shape v) idx).
  Proof.
    intros S Hi L. unfold broadcast_get. rewrite (whole_shape expand n k v S).
    destruct v as [x | x]; cbn [lead app seen seen_shape whole vmap_expand_dims] in *.
    - rewrite clip_cons by (rewrite app_length, repeat_length; lia). cbn [get hd tl slice].
      rewrite clip_pad by lia. f_equal. f_equal. destruct (Nat.eqb_spec n 1); lia.
    - destruct expand; cbn [app get expand_dims].
      + rewrite clip_cons by (rewrite app_length, repeat_length; lia). cbn [skipn]. now rewrite clip_pad by lia.
      + rewrite clip_drop by (rewrite app_length, repeat_length; lia). now rewrite clip_pad by lia.
  Qed.

  Lemma lead_axis {X} expand n (v : varg X) s i : axis (lead expand n v ++ s) i =
    if (i =? length s) && mapped v then n else if i =? length s then 1 else axis s i.
  Proof.
    assert (O : axis s (length s) = 1) by (unfold axis; apply nth_overflow; rewrite rev_length; lia).
    destruct v; cbn [lead mapped app]; rewrite ?andb_true_r, ?andb_false_r.
    - rewrite axis_cons. destruct (i =? length s); reflexivity.
    - destruct expand; cbn [app].
      + rewrite axis_cons. destruct (i =? length s); reflexivity.
      + destruct (Nat.eqb_spec i (length s)) as [-> |]; auto.
  Qed.

  (** C54. Under vmap, with either or both arguments mapped, the result is the
      stack of the results at each position. *)
  Theorem C54_vmap : forall expand n (a : varg A) (y : varg B),
    size_ok n a -> size_ok n y -> mapped a = true \/ mapped y = true ->
    compatible (seen_shape a) (seen_shape y) ->
    exists r, vmap_gammainccinv expand n f cast a y = Some r /\
      stacked n (fun i => gammainccinv f cast (seen i a) (seen i y)) r.
  Proof.
    intros expand n a y Sa Sy M K.
    unfold vmap_gammainccinv, vmap_pure_callback_ufunc.
    pose proof (broadcast_shapes_spec (seen_shape a) (seen_shape y)) as H.
    destruct (broadcast_shapes (seen_shape a) (seen_shape y)) as [s |] eqn:EB; [| contradiction].
    destruct H as [H _]. destruct (common_pad _ _ _ H) as [LP HP]. pose proof H as [LH _].
    unfold vmap_pure_callback, pure_callback, ufunc.
    rewrite (whole_shape expand n _ a Sa), (whole_shape expand n _ y Sy).
    set (pa := repeat 1 _ ++ seen_shape a) in *. set (py := repeat 1 _ ++ seen_shape y) in *.
    assert (La : length pa = length s) by (unfold pa; rewrite app_length, repeat_length; lia).
    assert (Ly : length py = length s) by (unfold py; rewrite app_length, repeat_length; lia).
    assert (CS : common_shape (lead expand n a ++ pa) (lead expand n y ++ py) (n :: s)).
    { split.
      - rewrite !app_length, La, Ly. destruct a, y; cbn [lead]; cbn [mapped] in M; destruct expand; cbn [length plus]; try lia;
          destruct M; discriminate.
      - intros i. rewrite axis_cons, !lead_axis, La, Ly, HP. destruct (i =? length s); cbn [andb]; [| reflexivity].
        destruct (mapped a), (mapped y); try (destruct M; discriminate); destruct (Nat.eqb_spec n 1); auto. }
    assert (CP : compatible (lead expand n a ++ pa) (lead expand n y ++ py)).
    { intros i. rewrite !lead_axis, La, Ly. destruct (i =? length s); cbn [andb].
      - destruct (mapped a), (mapped y); auto.
      - apply (compatible_pad _ _ _ _ K). }
    rewrite (broadcast_shapes_eq _ _ _ CS CP). cbn [option_map shape get].
    destruct (list_eq_dec Nat.eq_dec (n :: s) (n :: s)) as [_ |]; [| contradiction].
    eexists. split; [reflexivity |]. exists s. split; [reflexivity |]. intros i Hi.
    pose proof (gammainccinv_eq (seen i a) (seen i y)) as G. rewrite !seen_shape_eq, EB in G.
    destruct G as (x & E & S & V). exists x. split; [exact E |]. split; [exact S |]. intros idx I.
    assert (L : length idx = length s) by (clear -I; induction I; cbn; auto).
    rewrite (V idx L). cbn [get]. rewrite (whole_get expand n _ a i idx Sa Hi) by lia.
    rewrite (whole_get expand n _ y i idx Sy Hi) by lia. reflexivity.
  Qed.

  Lemma common_comm s t u : compatible s t -> common_shape s t u -> common_shape t s u.
  Proof.
    intros K [L H]. split; [rewrite L; apply Nat.max_comm |]. intros i. rewrite H.
    destruct (K i) as [E | [E | E]]; rewrite ?E; auto.
    - cbn. destruct (Nat.eqb_spec (axis t i) 1); auto.
    - cbn. destruct (Nat.eqb_spec (axis s i) 1); auto.
  Qed.

  (** C54. The quantile of the inverse gamma at [q] with shape parameter [a],
      element by element: the reciprocal of scipy's function at (a, q). *)
  Theorem C54_ppf : forall (inv : D -> D) (q : array B) (a : array A),
    (compatible (shape q) (shape a) ->
       exists r, ppf f cast inv q a = Some r /\ elementwise (fun q a => inv (cast (f a q))) q a r) /\
    (~ compatible (shape q) (shape a) -> ppf f cast inv q a = None).
  Proof.
    intros inv q a. destruct (C54_broadcast a q) as [G1 G2]. unfold ppf.
    assert (K : compatible (shape q) (shape a) <-> compatible (shape a) (shape q)).
    { unfold compatible. split; intros H i; destruct (H i) as [E | [E | E]]; auto. }
    split; intros H.
    - destruct (G1 (proj1 K H)) as (r & -> & S & V). eexists. split; [reflexivity |]. split.
      + cbn [shape]. apply common_comm; [now apply K | exact S].
      + intros idx jq ja I Jq Ja. cbn [get shape] in *. now rewrite (V idx ja jq).
    - now rewrite (G2 (fun C => H (proj2 K C))).
  Qed.

  (** C54. Under vmap it is the quantile for each position. *)
  Theorem C54_vmap_ppf : forall (inv : D -> D) expand n (q : varg B) (a : varg A),
    size_ok n a -> size_ok n q -> mapped a = true \/ mapped q = true ->
    compatible (seen_shape a) (seen_shape q) ->
    exists r, vmap_ppf expand n f cast inv q a = Some r /\
      stacked n (fun i => ppf f cast inv (seen i q) (seen i a)) r.
  Proof.
    intros inv expand n q a Sa Sq M K. destruct (C54_vmap expand n a q Sa Sq M K) as (r & E & s & S & V).
    unfold vmap_ppf. rewrite E. eexists. split; [reflexivity |]. exists s. split; [exact S |]. intros i Hi.
    destruct (V i Hi) as (z & Ez & Sz & Vz). unfold ppf. rewrite Ez. eexists. split; [reflexivity |].
    split; [exact Sz |]. intros idx I. cbn [get]. now rewrite Vz.
  Qed.
End Functions.
Print Assumptions C54_ppf.
Print Assumptions C54_vmap_ppf.
Print Assumptions C54_broadcast.
Print Assumptions C54_vmap.

(** A column of 3 numbers and a row of 2, the second one of 4 rows in turn: without
    the additional axes (which [pure_callback_ufunc] inserts) the 4 rows would be
    broadcast against the 3 numbers. *)
Definition col_ex : array nat := mkarray [3; 1] (fun idx => nth 0 idx 0).
Definition rows_ex : array nat := mkarray [4; 2] (fun idx => 10 * nth 0 idx 0 + nth 1 idx 0).
Example callback_example :
  size_ok 4 (Unmapped col_ex) /\ size_ok 4 (Mapped rows_ex) /\
  compatible (seen_shape (Unmapped col_ex)) (seen_shape (Mapped rows_ex)) /\
  (forall expand, option_map (fun r => (shape r, get r [3; 2; 1])) (vmap_gammainccinv expand 4 pair (fun z => z) (Unmapped col_ex) (Mapped rows_ex)) =
    Some ([4; 3; 2], (2, 31))) /\
  ufunc pair col_ex rows_ex = None /\
  ~ compatible (shape col_ex) (shape rows_ex).
Proof.
  split; [exact I |]. split; [now exists [2] |]. split.
  { intros [| [| [| i]]]; cbn; auto. }
  split; [intros [|]; reflexivity |]. split; [reflexivity |].
  intros C. destruct (C 1) as [E | [E | E]]; vm_compute in E; discriminate E.
Qed.
Example ppf_example :
  option_map (fun r => (shape r, get r [2; 1])) (ppf pair (fun z => z) (fun z => z) (slice 3 rows_ex) col_ex) =
    Some ([3; 2], (2, 31)) /\
  compatible (shape (slice 3 rows_ex)) (shape col_ex).
Proof. split; [reflexivity |]. intros [| [| [| i]]]; cbn; auto. Qed.
