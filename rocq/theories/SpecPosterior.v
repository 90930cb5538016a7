(** Specification of the Bayesian model of one leaf: normal prior, normal
    errors. Nothing here uses the modelled functions. *)
From Coq Require Import ZArith List Reals.
From Coquelicot Require Import Coquelicot.
Import ListNotations.
Open Scope R_scope.

(** Density at [x] of the normal distribution with mean [m] and variance [v] *)
Definition dnorm (m v x : R) : R := / sqrt (2 * PI * v) * exp (- (x - m) ^ 2 / (2 * v)).

(** Probability density of independent normal observations [rs] with mean [mu]
    and variance [s2] *)
Definition likelihood (s2 mu : R) (rs : list R) : R :=
  fold_right (fun r acc => dnorm mu s2 r * acc) 1 rs.

(** Given the observations, a leaf value with prior N(0, prior_var) has
    distribution N(mean, var). *)
Definition is_posterior (prior_var s2 : R) (rs : list R) (mean var : R) : Prop :=
  0 < var /\ exists C, 0 < C /\ forall mu,
    dnorm 0 prior_var mu * likelihood s2 mu rs = C * dnorm mean var mu.

(** Probability density of the observations in a leaf, integrating out the
    leaf value *)
Definition is_marginal_likelihood (prior_var s2 : R) (rs : list R) (ml : R) : Prop :=
  is_RInt_gen (fun mu => dnorm 0 prior_var mu * likelihood s2 mu rs)
    (Rbar_locally m_infty) (Rbar_locally p_infty) ml.

Definition rsum (l : list R) : R := fold_right Rplus 0 l.
