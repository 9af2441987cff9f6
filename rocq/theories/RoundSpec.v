(** Specification vocabulary for the rounding theorems: the real numbers that doubles denote,
    and the size of one rounding error. *)
From Coq Require Import ZArith Reals List SpecFloat.
From Flocq Require Import Core IEEE754.BinarySingleNaN.
From Verif Require Import Scalar ConstSpec VecModel RotModel VecSpec RSpec.
Open Scope R_scope.

(** The real number that a finite double denotes. *)
Definition real (x : spec_float) : R := SF2R radix2 x.

(** The double nearest to a real number, ties to even (without overflow). *)
Definition nearest (x : R) : R := round radix2 (FLT_exp (-1074) 53) ZnearestE x.

(** Half a unit in the last place of numbers next to one, and half of the smallest positive double. *)
Definition half_ulp : R := bpow radix2 (-53).
Definition half_tiny : R := bpow radix2 (-1075).

(** const.h 61, 130-133: the library's tolerance, 30 * 2^-52. *)
Definition lib_eps : R := 30 * bpow radix2 (-52).

(** An object of the C++ class in dimension n, all of whose coordinates are finite. *)
Definition doubles (n : nat) (v : coords spec_float) : Prop := dims n v /\ Forall finite_double (el v).

(** Its i-th coordinate. *)
Definition rco (v : coords spec_float) (i : nat) : R := real (nth i (el v) (S754_zero false)).

(** The sum of the sizes of the two products in a coordinate of the cross product. *)
Definition cross_mass (a b : nat -> R) (i : nat) : R :=
  match i with
  | O => Rabs (a 1%nat * b 2%nat) + Rabs (b 1%nat * a 2%nat)
  | S O => Rabs (a 2%nat * b 0%nat) + Rabs (b 2%nat * a 0%nat)
  | _ => Rabs (a 0%nat * b 1%nat) + Rabs (b 0%nat * a 1%nat)
  end.

(** A matrix with finite elements, and its elements. *)
Definition mdoubles (m : libm) (n : nat) (M : rotmatrix spec_float) : Prop :=
  forall i j, (i < n)%nat -> (j < n)%nat -> finite_double (elem (H := B64 m) M i j).
Definition mco (m : libm) (M : rotmatrix spec_float) (i j : nat) : R := real (elem (H := B64 m) M i j).
