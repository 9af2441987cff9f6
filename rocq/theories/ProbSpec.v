(** The distributions of probability.h as mathematics (C60, C61). *)
From Coq Require Import Reals.
From Coquelicot Require Import Coquelicot.
Open Scope R_scope.

(** The probability that a Poisson random variable of the given mean has the value n *)
Definition poisson_pmf (mean : R) (n : nat) : R := exp (- mean) * mean ^ n / INR (fact n).
(** t is the probability that it is not less than n *)
Definition poisson_tail (mean : R) (n : nat) (t : R) : Prop := is_series (fun k => poisson_pmf mean (n + k)) t.
(** The density of the normal distribution *)
Definition normal_density (mean stddev x : R) : R := exp (- ((x - mean) / stddev) ^ 2 / 2) / (Rabs stddev * sqrt (2 * PI)).
(** tail x is, for every x, the probability that a normal random variable is not less than x: one half at the mean,
    and falling with the density *)
Definition normal_tail (mean stddev : R) (tail : R -> R) : Prop :=
  tail mean = 1 / 2 /\ forall x y, is_RInt (normal_density mean stddev) x y (tail x - tail y).
(** p is q up to the factor exp d *)
Definition within (d p q : R) : Prop := q * exp (- d) <= p <= q * exp d.
