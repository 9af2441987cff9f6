(** The double instance of what probability.cpp takes from const.h and from the C library. *)
From Coq Require Import ZArith SpecFloat.
From Verif Require Import Scalar ProbModel LitModel.

(** exp and log are those of the C library, of which the standard says little; the constants are the literals of
    const.h 112-129, and std::numeric_limits<double>::epsilon() is 2^-52 (probability.cpp 31-266) *)
Definition Btrans (e l : spec_float -> spec_float) : Trans spec_float :=
  {| texp := e; tlog := l; tsqrt_pi := k_sqrt_pi double_constants; tlog_pi := k_log_pi double_constants; tlog2 := k_log2 double_constants;
     tulp := SFldexp prec64 emax64 (b64_ofZ 1) (-52) |}.
