(** Model of src/bartz/BART.py, class [gbart].

    The arithmetic is that of real numbers ([rops]). A (p, n) matrix of raw
    predictors is the list of its p rows; the input may only be an array (not a
    DataFrame). The linear regression and the inverse of the incomplete
    gamma function come from other libraries and are left unspecified here
    (what is needed of them is in SpecBART.v). *)
From Coq Require Import ZArith List Bool Reals String.
From Verif Require Import Base Laws ModelJaxext ModelGrove ModelStep ModelLoop ModelPrep SpecRun.
Import ListNotations.
Open Scope Z_scope.

(** [jnp.linalg.lstsq], of which only the sum of squared residuals and the rank
    are used, and [scipy.special.gammainccinv(a, y)] (jaxext.py:70-79) *)
Class external := {
  lstsq : list (list R) -> list R -> R * Z;
  gammainccinv : R -> R -> R
}.

(** jaxext.py:81-86 [scipy.stats.invgamma.ppf] *)
Definition invgamma_ppf {ex : external} (q a : R) : R := (1 / gammainccinv a q)%R.

Definition rsum (l : list R) : R := fold_left Rplus l 0%R.
Definition rmean (l : list R) : R := (rsum l / IZR (zlen l))%R.
(** [jnp.var] *)
Definition rvar (l : list R) : R :=
  (rsum (map (fun v => (v - rmean l) * (v - rmean l))%R l) / IZR (zlen l))%R.

(** number of columns of a matrix given as list of rows *)
Definition ncols {A} (X : list (list A)) : Z := match X with [] => 0 | r :: _ => zlen r end.
(** the list of the columns; [X.T] as list of rows *)
Definition columns {A} (d : A) (X : list (list A)) : list (list A) :=
  map (fun j => map (fun row => nth (Z.to_nat j) row d) X) (arange (ncols X)).

(** The entries of [initkw] that can be passed to [init] on top of the ones set
    by [gbart]; replacing the other arguments of [init] in this way is not
    modelled. [None] means that the entry is missing. *)
Record init_kw := mkinitkw {
  kw_min_points : option (option Z);
  kw_resid_batch : option Z;
  kw_count_batch : option Z;
  kw_save_ratios : bool
}.

(** BART.py:164-184, arguments of [__init__] apart from x_test *)
Record gbart_args := mkargs_gbart {
  x_train : list (list R);
  y_train : list R;
  usequants : bool;
  a_sigest : option R;
  sigdf : R;
  sigquant : R;
  a_k : R;
  power : R;
  base : R;
  maxdepth : Z;
  a_lamda : option R;
  a_offset : option R;
  ntree : Z;
  numcut : Z;
  ndpost : Z;
  nskip : Z;
  keepevery : Z;
  printevery : Z;
  seed : key;
  initkw : init_kw
}.

Section BART.
  Context {ex : external}.

  (** BART.py:287-310 [_process_noise_variance_settings]: lamda and sigest *)
  Definition process_noise_variance (x : list (list R)) (y : list R) (sigest : option R)
      (sigdf sigquant : R) (lamda : option R) (offset : R) : R * option R :=
    match lamda with
    | Some lamda => (lamda, None)
    | None =>
      let sigest2 :=
        match sigest with
        | Some sigest => (sigest * sigest)%R
        | None =>
          if zlen y <? 2 then 1%R
          else if zlen y <=? zlen x then rvar (map (fun v => v - offset)%R y)
          else
            let means := map rmean x in
            let x_centered := map (fun row => map2 Rminus row means) (columns 0%R x) in
            let y_centered := map (fun v => v - rmean y)%R y in
            let '(chisq, rank) := lstsq x_centered y_centered in
            let dof := zlen y - rank in
            (chisq / IZR dof)%R
        end in
      let alpha := (sigdf / 2)%R in
      let invchi2 := (invgamma_ppf sigquant alpha / 2)%R in
      let invchi2rid := (invchi2 * sigdf)%R in
      ((sigest2 / invchi2rid)%R, Some (sqrt sigest2))
    end.

  (** BART.py:312-318 [_process_offset_settings] *)
  Definition process_offset (y : list R) (offset : option R) : R :=
    match offset with
    | Some offset => offset
    | None => if zlen y <? 1 then 0%R else rmean y
    end.

  (** BART.py:320-325 [_process_scale_settings] *)
  Definition process_scale (y : list R) (k : R) : R :=
    if zlen y <? 2 then 1%R else ((rmax y - rmin y) / (2 * k))%R.

  (** BART.py:327-332 [_determine_splits]; the third component is the size of
      the type of max_split (prepcovars.py:82, 110). *)
  Definition determine_splits (x : list (list R)) (usequants : bool) (numcut : Z)
      : list (list ext) * list Z * Z :=
    if usequants then
      let '(splits, max_split) := quantilized_splits_from_matrix
          (quantilized_row_float ext_lt ext_eqb (mkoob false None) None exact_lin ext_half_sum)
          (ncols x) (map (map Some) x) (numcut + 1) in
      (splits, max_split, minimal_unsigned_bits (Z.min (numcut + 1) (ncols x) - 1))
    else
      let '(splits, max_split) := uniform_splits_from_matrix x (numcut + 1) in
      (map (map Some) splits, max_split, minimal_unsigned_bits (numcut + 1 - 1)).

  (** BART.py:334-336 [_bin_predictors]; the result is in the format of
      ModelStep.v, the list of the columns. *)
  Definition bin_columns (x : list (list R)) (splits : list (list ext)) : list (list Z) :=
    columns 0 (ModelPrep.bin_predictors ext_lt (map (map Some) x) splits).

  (** BART.py:338-340 [_transform_input], 374-376 [_transform_output] *)
  Definition transform_input (y : list R) (offset scale : R) : list R :=
    map (fun v => (v - offset) / scale)%R y.
  Definition transform_output (y : list (list R)) (offset scale : R) : list (list R) :=
    map (map (fun v => offset + scale * v)%R) y.

  (** BART.py:342-359 [_setup_mcmc]: the arguments of [init] *)
  Definition setup_mcmc (x : list (list Z)) (y : list R) (max_split : list Z) (split_bits : Z)
      (lamda sigdf power base : R) (maxdepth ntree : Z) (kw : init_kw) : @settings rops :=
    let p_nonterminal :=
      map (fun depth => base / Rpower (IZR (1 + depth)) power)%R (arange (maxdepth - 1)) in
    let sigma2_alpha := (sigdf / 2)%R in
    let sigma2_beta := (lamda * sigma2_alpha)%R in
    @mksettings rops x y max_split split_bits ntree p_nonterminal sigma2_alpha sigma2_beta
      (match kw_min_points kw with Some m => m | None => Some 5 end)
      (kw_resid_batch kw) (kw_count_batch kw) (kw_save_ratios kw).

  (** The attributes of the object *)
  Record gbart := mkgbart {
    g_offset : R; g_scale : R; g_lamda : R; g_sigest : option R;
    g_sigma : list R; g_first_sigma : list R;
    g_num_covar : Z;
    g_splits : list (list ext);
    g_main_trace : list (string * list (@value rops));
    g_state : @bart rops
  }.

  Section Fit.
    Context {zo : zoob} {foo : foob rops} {g : rng rops}.

    (** BART.py:378-380 [_extract_sigma] *)
    Definition extract_sigma (trace : list (string * list (@value rops))) (scale : R) : list R :=
      match lookup trace "sigma2" with
      | Some vs => map (fun v => match v with @VFloat _ s => (scale * sqrt (s : @F rops))%R | _ => 0%R end) vs
      | None => []
      end.

    (** The standardized problem: the arguments of [init] together with the
        settings and cutpoints computed before *)
    Definition prepare (a : gbart_args) : @settings rops * (R * R * R * option R * list (list ext)) :=
      let offset := process_offset (y_train a) (a_offset a) in
      let scale := process_scale (y_train a) (a_k a) in
      let '(lamda, sigest) := process_noise_variance (x_train a) (y_train a) (a_sigest a)
                                (sigdf a) (sigquant a) (a_lamda a) offset in
      let '(splits, max_split, bits) := determine_splits (x_train a) (usequants a) (numcut a) in
      let x := bin_columns (x_train a) splits in
      let y := transform_input (y_train a) offset scale in
      let lamda_scaled := (lamda / (scale * scale))%R in
      (setup_mcmc x y max_split bits lamda_scaled (sigdf a) (power a) (base a) (maxdepth a) (ntree a) (initkw a),
       (offset, scale, lamda, sigest, splits)).

    (** BART.py:164-224 [__init__], without x_test; BART.py:361-368 [_run_mcmc].
        The second result is the log. *)
    Definition fit (a : gbart_args) : gbart * list (option line) :=
      let '(s, (offset, scale, lamda, sigest, splits)) := prepare a in
      let callback := make_simple_print_callback (printevery a) in
      let '(final_state, burnin_trace, main_trace, log) :=
        run_mcmc (nskip a) (ndpost a) (keepevery a) callback (init_of s) (seed a) in
      ({| g_offset := offset; g_scale := scale; g_lamda := lamda; g_sigest := sigest;
          g_sigma := extract_sigma main_trace scale;
          g_first_sigma := extract_sigma burnin_trace scale;
          g_num_covar := zlen (x_train a);
          g_splits := splits; g_main_trace := main_trace; g_state := final_state |}, log).

    (** The forests in a trace, one per iteration, each as a list of trees *)
    Definition forest_of (l v s : @value rops) : list (list R * list Z * list Z) :=
      match l, v, s with
      | VMatFloat l, VMatInt v, VMatInt s => map2 pair (map2 pair l v) s
      | _, _, _ => []
      end.
    Definition trace_forests (trace : list (string * list (@value rops)))
        : list (list (list R * list Z * list Z)) :=
      match lookup trace "leaf_trees", lookup trace "var_trees", lookup trace "split_trees" with
      | Some l, Some v, Some s => map2 (fun lv s => forest_of (fst lv) (snd lv) s) (map2 pair l v) s
      | _, _, _ => []
      end.

    (** BART.py:370-372 [_predict], mcmcloop.py:174-197 *)
    Definition predict_binned (trace : list (string * list (@value rops))) (x : list (list Z))
        : list (list R) :=
      evaluate_trace (fo := rops) (trace_forests trace) x.

    (** BART.py:226-230 [yhat_train] *)
    Definition yhat_train (r : gbart) : list (list R) :=
      transform_output (predict_binned (g_main_trace r) (X (g_state r))) (g_offset r) (g_scale r).

    (** BART.py:236-254 [predict]; [None] is the failure of the assertion that the
        number of predictors is right (BART.py:267-269). *)
    Definition predict (r : gbart) (x_test : list (list R)) : option (list (list R)) :=
      if zlen x_test =? g_num_covar r then
        let x := bin_columns x_test (g_splits r) in
        Some (transform_output (predict_binned (g_main_trace r) x) (g_offset r) (g_scale r))
      else None.
  End Fit.
End BART.
