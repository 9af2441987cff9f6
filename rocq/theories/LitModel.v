(** The constants of const.h: decimal literals, converted by the compiler. *)
From Coq Require Import ZArith SpecFloat.
From Verif Require Import Scalar.
Open Scope Z_scope.

(** The floating point number of the format (prec, emax) that a literal n * 10^x, n > 0, denotes: the nearest
    one, ties to even, as IEC 60559 compilers convert literals (const.h 82-102, 112-126) *)
Definition literal (prec emax : Z) (n x : Z) : spec_float :=
  match n * 10 ^ (Z.max x 0), 10 ^ (Z.max (- x) 0) with
  | Zpos a, Zpos b => let '(mz, ez, lz) := SFdiv_core_binary prec emax (Zpos a) 0 (Zpos b) 0 in binary_round_aux prec emax false mz ez lz
  | _, _ => S754_zero false
  end.
(** the digits of the literals, which have 50 of them after the point (const.h 82-84, 112-114) *)
Definition pi_digits : Z := 314159265358979323846264338327950288419716939937508.
(** const.h 85-87, 115-117 *)
Definition sqrt_pi_digits : Z := 177245385090551602729816748334114518279754945612237.
(** const.h 88-90, 118-120 *)
Definition log_pi_digits : Z := 114472988584940017414342735135305871164729481291530.
(** const.h 91-93, 121-123 *)
Definition sqrt2_digits : Z := 141421356237309504880168872420969807856967187537693.
(** const.h 94-96, 124-126 *)
Definition sqrt3_digits : Z := 173205080756887729352744634150587236694280525381037.
(** const.h 97-99, 127-129 *)
Definition log2_digits : Z := 69314718055994530941723212145817656807550013436025.

(** numeric_constants<F>, for the format of F: float has 24 bits, double 53 (const.h 79-135) *)
Record constants := mkK { k_pi : spec_float; k_sqrt_pi : spec_float; k_log_pi : spec_float; k_sqrt2 : spec_float; k_sqrt3 : spec_float; k_log2 : spec_float; k_epsilon : spec_float }.
(** const.h 79-135; std::numeric_limits<F>::epsilon() is 2^(1-prec); the int 30 is converted to F *)
Definition numeric_constants (prec emax : Z) : constants :=
  let lit n := literal prec emax n (-50) in
  mkK (lit pi_digits) (lit sqrt_pi_digits) (lit log_pi_digits) (lit sqrt2_digits) (lit sqrt3_digits) (lit log2_digits)
      (SFmul prec emax (binary_normalize prec emax 30 0 false) (SFldexp prec emax (binary_normalize prec emax 1 0 false) (1 - prec))).
(** const.h 79-135, as above *)
Definition double_constants : constants := numeric_constants 53 1024.
(** const.h 79-135, as above *)
Definition float_constants : constants := numeric_constants 24 128.
