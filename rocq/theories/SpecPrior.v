(** Specification of the prior of [gbart]: the inverse gamma distribution
    through integrals of its density, and linear regression with an intercept. *)
From Coq Require Import ZArith List Bool Reals.
From Coquelicot Require Import Coquelicot.
From Verif Require Import Base.
Import ListNotations.
Open Scope R_scope.

(** ** Gamma and inverse gamma distributions *)

(** Densities on t > 0, without the normalization *)
Definition gamma_density (a t : R) : R := Rpower t (a - 1) * exp (- t).
Definition invgamma_density (a b t : R) : R := Rpower t (- a - 1) * exp (- (b / t)).

(** [l] is the integral of [f] on the positive half line, or from 0 to [x], or
    above [x]. *)
Definition integral_positive (f : R -> R) (l : R) : Prop :=
  is_RInt_gen f (at_right 0) (Rbar_locally p_infty) l.
Definition integral_below (f : R -> R) (x l : R) : Prop :=
  is_RInt_gen f (at_right 0) (at_point x) l.
Definition integral_above (f : R -> R) (x l : R) : Prop :=
  is_RInt_gen f (at_point x) (Rbar_locally p_infty) l.

(** A variable with density proportional to [f] is less than [x] with
    probability [q]; is more than [x] with probability [q]. *)
Definition is_quantile (f : R -> R) (q x : R) : Prop :=
  0 < x /\ exists total, 0 < total /\ integral_positive f total /\ integral_below f x (q * total).
Definition is_upper_quantile (f : R -> R) (q x : R) : Prop :=
  0 < x /\ exists total, 0 < total /\ integral_positive f total /\ integral_above f x (q * total).

(** 1 / E[1 / t] = [m], with [t] a variable with density proportional to [f] *)
Definition is_harmonic_mean (f : R -> R) (m : R) : Prop :=
  exists total inverse, 0 < total /\ 0 < inverse /\ integral_positive f total /\
    integral_positive (fun t => f t / t) inverse /\ m = total / inverse.

(** ** Linear regression with an intercept *)

(** Sum of the squared residuals for the intercept [c] and the coefficients
    [beta]; [x] is the list of the predictors, each a list of values. *)
Definition fitted (x : list (list R)) (c : R) (beta : list R) (i : nat) : R :=
  c + fold_right Rplus 0 (map2 (fun row b => b * nth i row 0) x beta).
Definition rss_intercept (x : list (list R)) (y : list R) (c : R) (beta : list R) : R :=
  fold_right Rplus 0 (map (fun i => (nth i y 0 - fitted x c beta i) ^ 2) (seq 0 (length y))).

(** [m] is the smallest sum of squared residuals. *)
Definition least_squares (x : list (list R)) (y : list R) (m : R) : Prop :=
  (forall c beta, m <= rss_intercept x y c beta) /\
  (forall m', (forall c beta, m' <= rss_intercept x y c beta) -> m' <= m).

(** ** Mean, variance, range *)
Definition mean_of (l : list R) : R := fold_right Rplus 0 l / INR (length l).
Definition variance_of (l : list R) : R :=
  fold_right Rplus 0 (map (fun v => (v - mean_of l) ^ 2) l) / INR (length l).
Definition is_range (l : list R) (r : R) : Prop :=
  exists lo hi, In lo l /\ In hi l /\ (forall v, In v l -> lo <= v <= hi) /\ r = hi - lo.
