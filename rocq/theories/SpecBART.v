(** Specification for [gbart]: valid arguments, what is asked of the linear
    regression, trees as functions of the raw predictors, affine changes of the
    response. *)
From Coq Require Import ZArith List Bool Reals.
From Verif Require Import Base Laws SpecTree ModelStep ModelPrep ModelBART.
Import ListNotations.
Open Scope Z_scope.

(** ** Linear regression *)

(** sum of the squared residuals of the regression of [y] on the rows of [A]
    with the given coefficients *)
Definition rss (A : list (list R)) (y coef : list R) : R :=
  fold_right Rplus 0%R
    (map2 (fun row v => let r := (v - fold_right Rplus 0 (map2 Rmult row coef))%R in (r * r)%R) A y).

(** [lstsq] returns the smallest sum of squared residuals; the rank does not
    depend on the response. *)
Class external_ok (ex : external) : Prop := {
  ex_lower : forall A y coef, (fst (lstsq A y) <= rss A y coef)%R;
  ex_greatest : forall A y c, (forall coef, c <= rss A y coef)%R -> (c <= fst (lstsq A y))%R;
  ex_rank : forall A y y', snd (lstsq A y) = snd (lstsq A y')
}.

(** ** Affine change of the response y -> a + b y *)
Definition affine (a b : R) (g : gbart_args) : gbart_args := {|
  x_train := x_train g;
  y_train := map (fun v => a + b * v)%R (y_train g);
  usequants := usequants g;
  a_sigest := option_map (fun v => b * v)%R (a_sigest g);
  sigdf := sigdf g; sigquant := sigquant g; a_k := a_k g; power := power g; base := base g;
  maxdepth := maxdepth g;
  a_lamda := option_map (fun v => b * b * v)%R (a_lamda g);
  a_offset := option_map (fun v => a + b * v)%R (a_offset g);
  ntree := ntree g; numcut := numcut g; ndpost := ndpost g; nskip := nskip g;
  keepevery := keepevery g; printevery := printevery g; seed := seed g; initkw := initkw g
|}.

(** min_points_per_leaf is at least 1 (it is 5 unless changed by initkw). *)
Definition nonempty_leaves (a : gbart_args) : Prop :=
  kw_min_points (initkw a) = None \/
  exists m, kw_min_points (initkw a) = Some (Some m) /\ 1 <= m.

(** ** Valid arguments

    The last one: if the user removes the minimum number of points per leaf,
    then the number of cutpoints is not the largest of an integer type. *)
Record args_ok (a : gbart_args) : Prop := {
  go_p : 1 <= zlen (x_train a) < 2 ^ 64;
  go_rows : forall row, In row (x_train a) -> zlen row = zlen (y_train a);
  go_n : 1 <= zlen (y_train a) < 2 ^ 32;
  go_numcut : 0 <= numcut a < 2 ^ 63;
  go_depth : 2 <= maxdepth a <= 64;
  go_base : (0 <= base a)%R;
  go_ndpost : 0 <= ndpost a;
  go_nskip : 0 <= nskip a;
  go_keepevery : 0 <= keepevery a;
  go_resid_batch : forall k, kw_resid_batch (initkw a) = Some k -> 1 <= k;
  go_count_batch : forall k, kw_count_batch (initkw a) = Some k -> 1 <= k;
  go_overflow : nonempty_leaves a \/
    forall k, In k [8; 16; 32] -> numcut a <> 2 ^ k - 1 /\ zlen (y_train a) <> 2 ^ k
}.

(** ** Trees as functions of the raw predictors *)

(** Value of a tree at a point: a decision node with variable [v] and cutpoint
    number [s] sends to the right the points with x[v] > splits[v][s - 1]. *)
Fixpoint raw_eval (splits : list (list ext)) (t : dtree R) (x : list R) : R :=
  match t with
  | DLeaf v => v
  | DNode v s l r =>
    match nth (Z.to_nat (s - 1)) (nth (Z.to_nat v) splits []) None with
    | Some c => if Rlt_dec c (nth (Z.to_nat v) x 0%R) then raw_eval splits r x else raw_eval splits l x
    | None => raw_eval splits l x
    end
  end.

(** The point number [j] of a matrix given by its rows *)
Definition point {A} (d : A) (x : list (list A)) (j : nat) : list A := map (fun row => nth j row d) x.
