(** Specification vocabulary for C11-C13. *)
From Coq Require Import SpecFloat Bool.
From Verif Require Import Scalar.

(** A finite double (neither infinite nor NaN) and a non-negative one. *)
Definition finite_double (x : spec_float) : Prop :=
  is_double x /\ match x with S754_zero _ | S754_finite _ _ _ => True | _ => False end.
Definition tolerance (e : spec_float) : Prop := is_double e /\ SFleb (S754_zero false) e = true.
Definition comparable (x : spec_float) : Prop := x <> S754_nan.
