(** The progress log: C43. *)
From Coq Require Import ZArith List Bool String Ascii Lia.
From Verif Require Import Base LemBase ModelJaxext ModelGrove ModelStep ModelLoop SpecLoop ProofLoop PropLoop
  Laws SpecRun Examples ExampleRun.
Import ListNotations.
Open Scope Z_scope.

(** ** Decimal notation, as specification *)
Definition digit_value (c : ascii) : Z := Z.of_nat (nat_of_ascii c) - 48.
Fixpoint decimal_from (a : Z) (s : string) : Z :=
  match s with
  | EmptyString => a
  | String c s => decimal_from (10 * a + digit_value c) s
  end.
Fixpoint all_chars (P : ascii -> Prop) (s : string) : Prop :=
  match s with
  | EmptyString => True
  | String c s => P c /\ all_chars P s
  end.

(** [s] is the decimal notation of [n], without unneeded zeros *)
Record is_decimal (s : string) (n : Z) : Prop := {
  dec_digits : all_chars (fun c => 0 <= digit_value c <= 9) s;
  dec_value : decimal_from 0 s = n;
  dec_short : 10 ^ (Z.of_nat (String.length s) - 1) <= n \/ String.length s = 1%nat
}.

Lemma digit_value_ascii n : 0 <= n < 10 -> digit_value (ascii_of_nat (48 + Z.to_nat n)) = n.
Proof.
  intros H. unfold digit_value. rewrite nat_ascii_embedding by lia. lia.
Qed.

Lemma digits_fuel_spec fuel : forall n acc, (0 < fuel)%nat -> 0 <= n < 10 ^ Z.of_nat fuel ->
  (all_chars (fun c => 0 <= digit_value c <= 9) acc ->
   all_chars (fun c => 0 <= digit_value c <= 9) (digits_fuel fuel n acc)) /\
  decimal_from 0 (digits_fuel fuel n acc) = decimal_from n acc /\
  exists k, String.length (digits_fuel fuel n acc) = (k + String.length acc)%nat /\
    (1 <= k)%nat /\ n < 10 ^ Z.of_nat k /\ (10 ^ (Z.of_nat k - 1) <= n \/ k = 1%nat).
Proof.
  induction fuel as [| fuel IH]; intros n acc Hf Hn; [lia |]. cbn [digits_fuel].
  pose proof (Z.mod_pos_bound n 10 ltac:(lia)) as Hm.
  pose proof (Z.div_mod n 10 ltac:(lia)) as Hd.
  set (c := ascii_of_nat (48 + Z.to_nat (n mod 10))).
  assert (Ec : digit_value c = n mod 10) by (apply digit_value_ascii; lia).
  destruct (Z.eqb_spec (n / 10) 0) as [E | E].
  - split; [intros H; split; auto; lia |]. split.
    + cbn [decimal_from]. f_equal. lia.
    + exists 1%nat. cbn [String.length]. repeat split; try lia.
  - assert (Hq : 0 < n / 10) by (pose proof (Z.div_pos n 10); lia).
    rewrite Nat2Z.inj_succ, Z.pow_succ_r in Hn by lia.
    assert (Hf' : (0 < fuel)%nat).
    { destruct fuel; [| lia]. change (10 ^ Z.of_nat 0) with 1 in Hn. lia. }
    destruct (IH (n / 10) (String c acc) Hf' ltac:(lia)) as (A & B & k & L & K1 & K2 & K3).
    split; [intros H; apply A; split; auto; lia |]. split.
    + rewrite B. cbn [decimal_from]. f_equal. lia.
    + exists (S k). rewrite L. cbn [String.length].
      rewrite Nat2Z.inj_succ. replace (Z.succ (Z.of_nat k) - 1) with (Z.of_nat k) by lia.
      split; [lia |]. split; [lia |]. rewrite Z.pow_succ_r by lia. split; [lia |]. left.
      destruct K3 as [K3 | ->]; [| change (10 ^ Z.of_nat 1) with 10; lia].
      replace (Z.of_nat k) with (Z.succ (Z.of_nat k - 1)) by lia.
      rewrite Z.pow_succ_r by lia. lia.
Qed.

Lemma log2_fuel n : 0 <= n -> 0 <= n < 10 ^ Z.of_nat (S (Z.to_nat (Z.log2 n))).
Proof.
  intros H. split; auto.
  rewrite Nat2Z.inj_succ, Z2Nat.id by apply Z.log2_nonneg.
  destruct (Z.eq_dec n 0) as [-> | Hn]; [reflexivity |].
  apply Z.lt_le_trans with (2 ^ Z.succ (Z.log2 n)).
  - apply Z.log2_spec. lia.
  - apply Z.pow_le_mono_l. lia.
Qed.

Lemma str_decimal n : 0 <= n -> is_decimal (str n) n.
Proof.
  intros H. unfold str.
  destruct (digits_fuel_spec _ n "" (Nat.lt_0_succ _) (log2_fuel n H)) as (A & B & k & L & K1 & K2 & K3).
  split; [now apply A | now rewrite B |]. rewrite L. cbn [String.length]. rewrite Nat.add_0_r. tauto.
Qed.

Lemma str_length n m : 0 <= n <= m -> (String.length (str n) <= String.length (str m))%nat.
Proof.
  intros H. unfold str.
  destruct (digits_fuel_spec _ n "" (Nat.lt_0_succ _) (log2_fuel n ltac:(lia))) as (_ & _ & k & -> & K1 & K2 & K3).
  destruct (digits_fuel_spec _ m "" (Nat.lt_0_succ _) (log2_fuel m ltac:(lia))) as (_ & _ & l & -> & L1 & L2 & L3).
  cbn [String.length]. destruct K3 as [K3 | ->]; [| lia].
  destruct (Nat.le_gt_cases k l) as [| Hlt]; [lia |]. exfalso.
  assert (10 ^ Z.of_nat l <= 10 ^ (Z.of_nat k - 1)) by (apply Z.pow_le_mono_r; lia). lia.
Qed.

Lemma spaces_string n : all_chars (fun c => c = " "%char) (string_of_list_ascii (repeat " "%char n)).
Proof. induction n; cbn; auto. Qed.

Lemma string_length_app a b : String.length (a ++ b) = (String.length a + String.length b)%nat.
Proof. induction a; cbn; auto. Qed.

Lemma multiples {A} (h : Z -> A) (k : Z) : 1 <= k -> forall N : nat,
  flat_map (fun i => if (Z.of_nat i + 1) mod k =? 0 then [h (Z.of_nat i + 1)] else []) (seq 0 N) =
  map (fun j => h (Z.of_nat j * k)) (seq 1 (Z.to_nat (Z.of_nat N / k))).
Proof.
  intros Hk. induction N as [| N IH].
  - now rewrite Z.div_0_l by lia.
  - rewrite seq_S, flat_map_app, IH. cbn [flat_map Nat.add]. rewrite app_nil_r.
    rewrite Nat2Z.inj_succ. fold (Z.succ (Z.of_nat N)).
    replace (Z.of_nat N + 1) with (Z.succ (Z.of_nat N)) by lia.
    set (n := Z.of_nat N). assert (Hn : 0 <= n) by lia.
    pose proof (Z.div_mod n k ltac:(lia)) as D. pose proof (Z.mod_pos_bound n k ltac:(lia)) as M.
    assert (Hq : 0 <= n / k) by (apply Z.div_pos; lia).
    destruct (Z.eq_dec (n mod k) (k - 1)) as [E | E].
    + assert (E1 : Z.succ n = (n / k + 1) * k) by nia.
      assert (E2 : Z.succ n / k = n / k + 1) by (rewrite E1; apply Z.div_mul; lia).
      assert (E3 : Z.succ n mod k = 0) by (rewrite E1; apply Z.mod_mul; lia).
      rewrite E2, E3. cbn [Z.eqb]. replace (Z.to_nat (n / k + 1)) with (S (Z.to_nat (n / k))) by lia.
      rewrite seq_S, map_app. f_equal. cbn [map Nat.add]. f_equal. f_equal. rewrite E1. f_equal. lia.
    + assert (E2 : Z.succ n / k = n / k)
        by (symmetry; apply Z.div_unique with (n mod k + 1); lia).
      assert (E3 : Z.succ n mod k = n mod k + 1)
        by (symmetry; apply Z.mod_unique with (n / k); lia).
      rewrite E2, E3. destruct (Z.eqb_spec (n mod k + 1) 0); [lia |]. now rewrite app_nil_r.
Qed.

Section Props.
  Context {fo : fops} {zo : zoob} {foo : foob fo} {g : rng fo}.

  (** The lines printed by the successive calls *)
  Definition printed (calls : list (option line)) : list line :=
    flat_map (fun c => match c with Some l => [l] | None => [] end) calls.

  (** C43. With printevery = k >= 1, the j-th printed line (from 0) is about
      iteration (j+1)*k: it shows that number, right-justified, over the total
      number of iterations; the frequencies of grow and prune moves in that
      iteration; and the burn-in mark iff the iteration was in the burn-in.
      There are as many lines as multiples of k up to the total. *)
  Theorem C43_progress_log : forall printevery nb ns nk b k,
    1 <= printevery -> 0 <= nb -> 0 <= ns -> 0 <= nk ->
    let '(_, _, _, calls) := run_mcmc nb ns nk (make_simple_print_callback printevery) b k in
    let total := nb + ns * nk in
    zlen (printed calls) = total / printevery /\
    forall j, 0 <= j < total / printevery ->
      let i := (j + 1) * printevery in
      let state := chain b k (Z.to_nat i) in
      exists text fr flag pad i_str total_str,
        nth_error (printed calls) (Z.to_nat j) = Some (text, fr, flag) /\
        text = ("Iteration " ++ (pad ++ i_str) ++ "/" ++ total_str ++ " ")%string /\
        all_chars (fun c => c = " "%char) pad /\
        is_decimal i_str i /\ is_decimal total_str total /\
        String.length (pad ++ i_str) = String.length total_str /\
        flag = (if i <=? nb then " (burnin)"%string else ""%string) /\
        P_grow fr = fdiv (fofZ (grow_prop_count state)) (fofZ (zlen (trees state))) /\
        P_prune fr = fdiv (fofZ (prune_prop_count state)) (fofZ (zlen (trees state))) /\
        A_grow fr = fdiv (fofZ (grow_acc_count state)) (fofZ (grow_prop_count state)) /\
        A_prune fr = fdiv (fofZ (prune_acc_count state)) (fofZ (prune_prop_count state)).
  Proof.
    intros pe nb ns nk b k Hp Hb Hs Hk.
    destruct (run_value nb ns nk Hb Hs Hk (make_simple_print_callback pe) b k) as (bt & mt & -> & _ & _).
    set (total := nb + ns * nk). assert (Ht : 0 <= total) by (unfold total; nia).
    set (h := fun i : Z => let st := chain b k (Z.to_nat i) in
      (("Iteration " ++ rjust (str i) (String.length (str total)) ++ "/" ++ str total ++ " ")%string,
       {| P_grow := fdiv (fofZ (grow_prop_count st)) (fofZ (zlen (trees st)));
          P_prune := fdiv (fofZ (prune_prop_count st)) (fofZ (zlen (trees st)));
          A_grow := fdiv (fofZ (grow_acc_count st)) (fofZ (grow_prop_count st));
          A_prune := fdiv (fofZ (prune_acc_count st)) (fofZ (prune_prop_count st)) |},
       if i <=? nb then " (burnin)"%string else ""%string) : line).
    assert (EP : printed (map (fun i => make_simple_print_callback pe (expected_call nb ns nk b k i))
        (seq 0 (Z.to_nat total))) =
      map (fun j => h (Z.of_nat j * pe)) (seq 1 (Z.to_nat (total / pe)))).
    { replace (total / pe) with (Z.of_nat (Z.to_nat total) / pe) by (now rewrite Z2Nat.id).
      rewrite <- (multiples h pe Hp).
      unfold printed. rewrite flat_map_concat_map, map_map, <- flat_map_concat_map.
      apply flat_map_ext. intros i.
      unfold make_simple_print_callback, simple_print, expected_call.
      cbn [cb_bart cb_burnin cb_i_total cb_i_skip cb_n_burn cb_n_save cb_n_skip].
      fold total. destruct (_ =? 0); auto. f_equal. unfold h.
      replace (Z.to_nat (Z.of_nat i + 1)) with (S i) by lia.
      destruct (Z.ltb_spec (Z.of_nat i) nb), (Z.leb_spec (Z.of_nat i + 1) nb); try lia; reflexivity. }
    rewrite EP. clear EP.
    assert (Hq : 0 <= total / pe) by (apply Z.div_pos; lia).
    split; [unfold zlen; rewrite map_length, seq_length; lia |].
    intros j Hj. rewrite nth_error_map.
    rewrite nth_error_nth' with (d := 0%nat) by (rewrite seq_length; lia).
    rewrite seq_nth by lia. cbn [option_map]. replace (Z.of_nat (1 + Z.to_nat j)) with (j + 1) by lia.
    set (i := (j + 1) * pe).
    assert (Hi : 0 <= i <= total).
    { unfold i. split; [nia |]. apply Z.le_trans with (total / pe * pe); [nia |].
      rewrite Z.mul_comm. apply Z.mul_div_le; lia. }
    unfold h. do 3 eexists.
    exists (string_of_list_ascii (repeat " "%char (String.length (str total) - String.length (str i)))),
      (str i), (str total).
    split; [reflexivity |]. split; [reflexivity |].
    split; [apply spaces_string |]. split; [apply str_decimal; lia |].
    split; [apply str_decimal; lia |].
    split; [| repeat split; reflexivity].
    rewrite string_length_app.
    pose proof (str_length i total Hi).
    assert (forall n, String.length (string_of_list_ascii (repeat " "%char n)) = n) as ->.
    { induction n; cbn; auto. }
    lia.
  Qed.
End Props.

(** An instance: iteration 10 of 100. *)
Example decimal_example : is_decimal "10" 10 /\ is_decimal "0" 0 /\ ~ is_decimal "010" 10 /\ str 1234 = "1234"%string.
Proof.
  split; [split; [repeat split; vm_compute; discriminate | reflexivity | left; vm_compute; discriminate] |].
  split; [split; [repeat split; vm_compute; discriminate | reflexivity | now right] |].
  split; [| reflexivity]. intros [_ _ [H | H]]; vm_compute in H; [now apply H | discriminate].
Qed.

(** A run with 7 burn-in iterations and 2 saved samples every 3 iterations:
    which iterations are logged, and the 'prune_prop_count' in the traces. *)
Definition ints (vs : option (list (@value xops))) : list Z :=
  match vs with
  | Some vs => map (fun v => match v with VInt n => n | _ => -1 end) vs
  | None => []
  end.
Example loop_example :
  (let '(_, burnin_trace, main_trace, calls) :=
     run_mcmc (zo := zclip) (foo := xclip) (g := xrng) 7 2 3 (make_simple_print_callback 6)
       (@init_of xops xclip ex_settings) (KRoot 0) in
   (map (fun l => (fst (fst l), snd l)) (printed calls),
    ints (lookup burnin_trace "prune_prop_count"%string),
    ints (lookup main_trace "prune_prop_count"%string))) =
  ([("Iteration  6/13 ", " (burnin)"); ("Iteration 12/13 ", "")]%string,
   [0; 1; 1; 1; 2; 2; 1], [2; 1]).
Proof. vm_compute. reflexivity. Qed.

Print Assumptions C43_progress_log.
