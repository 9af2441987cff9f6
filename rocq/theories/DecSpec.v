(** Specification vocabulary for numbers written as decimal text. *)
From Coq Require Import ZArith Reals List SpecFloat.
From Flocq Require Import Core IEEE754.BinarySingleNaN.
From Verif Require Import Scalar ConstSpec VecModel ShapeModel RoundSpec.
Open Scope R_scope.

(** Zero, or of a size for which neither the decimal nor its neighbours overflow or lose digits. *)
Definition plain_size (x : spec_float) : Prop :=
  finite_double x /\ (real x = 0 \/ bpow radix2 (-1021) <= Rabs (real x) <= bpow radix2 1022).

(** Half a unit of the last of prec decimal digits, relative to the number, and one unit of the last bit. *)
Definition digits_error (prec : nat) : R := / 2 * / 10 ^ (prec - 1) + bpow radix2 (-52).

(** z is x to prec digits: as close as that, and with the same sign, also for zero. *)
Definition to_digits (prec : nat) (x z : spec_float) : Prop :=
  finite_double z /\ Rabs (real z - real x) <= digits_error prec * Rabs (real x) /\ sign_SF z = sign_SF x.
Definition to_digits_point (prec : nat) (p q : coords spec_float) : Prop :=
  Forall2 (to_digits prec) (el p) (el q) /\ valid q = true.

(** An object of the given dimension with such coordinates, and with finite coordinates. *)
Definition plain_point (dim : nat) (p : coords spec_float) : Prop := length (el p) = dim /\ Forall plain_size (el p) /\ valid p = true.
Definition finite_point (dim : nat) (p : coords spec_float) : Prop := length (el p) = dim /\ Forall finite_double (el p) /\ valid p = true.

(** The number with the given digits, the last of them being worth 10^k. *)
Definition decimal (ds : list Z) (k : Z) : R := IZR (fold_left (fun a d => 10 * a + d)%Z ds 0%Z) * powerRZ 10 k.
