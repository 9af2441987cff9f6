(** Specification vocabulary for the probability functions in doubles. *)
From Coq Require Import ZArith Reals SpecFloat.
From Flocq Require Import Core.
From Verif Require Import ConstSpec RoundSpec.
Open Scope R_scope.

(** The exponential that the C library gives for the double h is a finite double within one unit in the last place. *)
Definition exp_accurate_at (e : spec_float -> spec_float) (h : spec_float) : Prop :=
  finite_double (e h) /\ Rabs (real (e h) - exp (real h)) <= 2 * half_ulp * exp (real h).

(** The logarithm that the C library gives for the double x is a finite double within one unit in the last place, or half of the smallest double. *)
Definition log_accurate_at (l : spec_float -> spec_float) (x : spec_float) : Prop :=
  finite_double (l x) /\ Rabs (real (l x) - ln (real x)) <= 2 * half_ulp * Rabs (ln (real x)) + half_tiny.
