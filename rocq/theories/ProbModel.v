(** Model of src/wfmath/probability.cpp.  Written over any number type with exp and log; both template instances
    (float, double) are the same code.  A loop or recursion that does not end within its fuel gives None. *)
From Coq Require Import ZArith NArith Bool List Reals.
From Verif Require Import Base Scalar MiniballModel.
Import ListNotations.

(** std::exp, std::log, the constants of const.h 68-77 and std::numeric_limits<FloatT>::epsilon() *)
Class Trans (T : Type) := {
  texp : T -> T; tlog : T -> T;
  tsqrt_pi : T; tlog_pi : T; tlog2 : T;
  tulp : T
}.
(** The real numbers; u stands for the machine epsilon. *)
Definition Rtrans (u : R) : Trans R := {| texp := exp; tlog := ln; tsqrt_pi := sqrt PI; tlog_pi := ln PI; tlog2 := ln 2; tulp := u |}.

(** unsigned int *)
Definition uwrap (n : Z) : Z := (n mod 2 ^ 32)%Z.

Section Prob.
Context {T} `{Num T} `{Trans T}.
Open Scope num_scope.

(** probability.cpp 48 GammaCutoff *)
Definition gamma_cutoff : Z := 10.
(** a value, no failure (no counterpart in the source) *)
Definition ret (x : T) : res T := Some (Ret x).
(** a / b for integer literals *)
Definition frac (a b : Z) : T := nofZ a / nofZ b.

(** probability.cpp 223-227 the table of LogGamma *)
Definition coeffs : list T :=
  [frac 1 12; frac (-1) 360; frac 1 1260; frac (-1) 1620; frac 5 5940; frac (-691) 360360; frac 7 1092;
   frac (-3617) 122400; frac 43867 244188; frac (-174661) 125400; frac 854513 63756].

(** probability.cpp 205-210 the loop that moves z to the cutoff: (shift, z) *)
Fixpoint shift_loop (fuel : nat) (shift z : T) : option (T * T) :=
  match fuel with
  | O => None
  | S k => if z <? nofZ gamma_cutoff then shift_loop k (shift * z) (z + n1) else Some (shift, z)
  end.
(** probability.cpp 235-243 the series; the assertion fails when no term is small enough *)
Fixpoint series_loop (cs : list T) (z_power z_to_minus_two small ans : T) : outcome T :=
  match cs with
  | [] => AssertFail
  | c :: cs =>
      let next := c * z_power in
      let ans := ans + next in
      if nabs next <? small then Ret ans
      else series_loop cs (z_power * z_to_minus_two) z_to_minus_two small ans
  end.
(** probability.cpp 214-247 Stirling's approximation at z, less log_shift *)
Definition stirling_start (z log_shift : T) : T := (z - nhalf) * tlog z - log_shift - z + (tlog_pi + tlog2) / n2.
(** probability.cpp 214-247, as above *)
Definition stirling (z log_shift : T) : outcome T :=
  let ans := stirling_start z log_shift in
  let z_power := n1 / z in
  series_loop coeffs z_power (z_power * z_power) (nabs ans * tulp) ans.
(** probability.cpp 183-248 *)
Fixpoint log_gamma_ (fuel : nat) (z : T) : res T :=
  match fuel with
  | O => None
  | S k =>
      if z <? nhalf then rbind (log_gamma_ k (n1 - z)) (fun g => ret (tlog_pi - g - tlog (nabs (nsin (npi * z)))))
      else if z =? nhalf then ret (tlog_pi / n2)
      else if (z =? n1) || (z =? n2) then ret n0
      else if z <? nofZ gamma_cutoff then
        match shift_loop 11 n1 z with
        | None => None
        | Some (shift, z) => Some (stirling z (tlog (nabs shift)))
        end
      else Some (stirling z n0)
  end.
(** probability.cpp 183-248, as above *)
Definition log_gamma (z : T) : res T := log_gamma_ 2 z.
(** probability.cpp 172-181 *)
Definition gamma (z : T) : res T :=
  if z >=? nhalf then rbind (log_gamma z) (fun g => ret (texp g))
  else rbind (log_gamma (n1 - z)) (fun g => ret (npi * texp (- g) / nsin (npi * z))).

(** probability.cpp 147-149, 163-165: while(--n > 1) ans *= n *)
Fixpoint product_down (n : nat) (ans : T) : T :=
  match n with
  | O => ans
  | S k => if Nat.ltb 1 k then product_down k (ans * nofZ (Z.of_nat k)) else ans
  end.
(** probability.cpp 140-154; n is an unsigned int, so n + 1 wraps *)
Definition factorial (n : Z) : res T :=
  if ((n =? 0) || (n =? 1))%Z then ret n1
  else if (n <? gamma_cutoff)%Z then ret (product_down (Z.to_nat n) (nofZ n))
  else rbind (log_gamma (nofZ (uwrap (n + 1)))) (fun g => ret (texp g)).
(** probability.cpp 156-170 *)
Definition log_factorial (n : Z) : res T :=
  if ((n =? 0) || (n =? 1))%Z then ret n0
  else if (n <? gamma_cutoff)%Z then ret (tlog (product_down (Z.to_nat n) (nofZ n)))
  else log_gamma (nofZ (uwrap (n + 1))).

(** probability.cpp 119-138 *)
Definition log_poisson (mean : T) (step : Z) : res T :=
  rbind (Some (oassert (n0 <? mean) (Ret tt))) (fun _ =>
    if (step =? 0)%Z then ret (- mean)
    else
      let first := nofZ step * tlog mean in
      rbind (log_factorial step) (fun lf =>
        let second := mean + lf in
        Some (oassert (n0 <? second)
          (let ans := first - second in oassert (ans <? n0) (Ret ans))))).
(** probability.cpp 108-117 *)
Definition poisson (mean : T) (step : Z) : res T :=
  rbind (Some (oassert (n0 <=? mean) (Ret tt))) (fun _ =>
    if mean =? n0 then ret (if (step =? 0)%Z then n1 else n0)
    else rbind (log_poisson mean step) (fun l => ret (texp l))).

(** probability.cpp 268-285 the power series.  The loop of 279-282. *)
Fixpoint power_series (fuel : nat) (z term dividend ans : T) : res T :=
  match fuel with
  | O => None
  | S k =>
      if nabs (term / ans) >? tulp then
        let dividend := dividend + n1 in
        let term := term * (z / dividend) in
        power_series k z term dividend (ans + term)
      else ret ans
  end.
(** probability.cpp 268-285, as above *)
Definition igam_nop (fuel : nat) (a z : T) : res T :=
  rbind (Some (oassert ((z <=? a + n1) && (n0 <? z) && (n0 <? a)) (Ret tt))) (fun _ => power_series fuel z n1 a n1).

(** probability.cpp 305-366 the continued fraction.  The loop of 334-365. *)
Definition cf_small : T := nminval * nofZ 1000.
(** probability.cpp 305-366, as above *)
Fixpoint cf_loop (fuel : nat) (a b_contrib a_last b_last a_next b_next term : T) (next_zero : bool) : res T :=
  match fuel with
  | O => None
  | S k =>
      let a_tmp := a_next in let b_tmp := b_next in
      let a_contrib := term * (a - term) in
      let term := term + n1 in
      let b_contrib := b_contrib + n2 in
      let a_next := b_contrib * a_tmp + a_contrib * a_last in
      let b_next := b_contrib * b_tmp + a_contrib * b_last in
      let a_last := a_tmp in let b_last := b_tmp in
      let last_zero := next_zero in
      let next_zero := nabs b_next <=? nabs a_next * cf_small in
      if next_zero then cf_loop k a b_contrib a_last b_last a_next b_next term next_zero
      else
        let a_next := a_next / b_next in
        if negb last_zero && (nabs (a_next - a_last) <? nabs a_last * tulp) then ret a_next
        else cf_loop k a b_contrib (a_last / b_next) (b_last / b_next) a_next n1 term next_zero
  end.
(** probability.cpp 305-366, as above *)
Definition igamc_nop (fuel : nat) (a z : T) : res T :=
  rbind (Some (oassert ((z >=? a + n1) && (n0 <? a)) (Ret tt))) (fun _ =>
    let b_contrib := z + n1 - a in
    if nabs b_contrib <=? cf_small then cf_loop fuel a b_contrib n0 n1 n1 b_contrib n1 true
    else cf_loop fuel a b_contrib n0 (n1 / b_contrib) (n1 / b_contrib) n1 n1 false).

(** probability.cpp 250-266 IncompleteGamma and 287-303 IncompleteGammaComplement, which call each other; c selects the second *)
Fixpoint igam_ (calls fuel : nat) (c : bool) (a z : T) : res T :=
  match calls with
  | O => None
  | S k =>
      rbind (Some (oassert ((n0 <=? z) && (n0 <=? a)) (Ret tt))) (fun _ =>
        if c then
          if a =? n0 then ret n0
          else if z =? n0 then ret n1
          else if z <? a + n1 then rbind (igam_ k fuel false a z) (fun x => ret (n1 - x))
          else rbind (log_gamma a) (fun g => rbind (igamc_nop fuel a z) (fun x => ret (x * texp (a * tlog z - z - g))))
        else
          if a =? n0 then ret n1
          else if z =? n0 then ret n0
          else if z >? a + n1 then rbind (igam_ k fuel true a z) (fun x => ret (n1 - x))
          else rbind (log_gamma a) (fun g => rbind (igam_nop fuel a z) (fun x => ret (x * texp (a * (tlog z + n1) - z - g)))))
  end.
(** probability.cpp 250-266, as above *)
Definition igam (fuel : nat) (a z : T) : res T := igam_ 2 fuel false a z.
(** probability.cpp 250-266, as above *)
Definition igamc (fuel : nat) (a z : T) : res T := igam_ 2 fuel true a z.

(** probability.cpp 77-87 *)
Definition gaussian (mean stddev val : T) : outcome T :=
  oassert (negb (stddev =? n0))
    (let diff := (mean - val) / stddev in
     Ret (texp (- (diff * diff) / n2) / (nabs stddev * (tsqrt_pi * nsqrt2)))).
(** probability.cpp 50-75 *)
Definition gaussian_conditional (fuel : nat) (mean stddev val : T) : res T :=
  rbind (Some (oassert (negb (stddev =? n0)) (Ret tt))) (fun _ =>
    let diff := val - mean in
    let diffnorm := diff / stddev in
    let d2 := diffnorm * diffnorm / n2 in
    if diffnorm <? nsqrt3 + nofZ 10 * tulp then
      rbind (igamc fuel nhalf d2) (fun erfc_norm =>
        let normalization := if n0 <? diffnorm then erfc_norm / n2 else n1 - erfc_norm / n2 in
        rbind (Some (gaussian mean stddev val)) (fun g => ret (g / normalization)))
    else rbind (igamc_nop fuel nhalf d2) (fun x => ret (n2 / (nabs diff * x)))).
(** probability.cpp 89-106 *)
Definition poisson_conditional (fuel : nat) (mean : T) (step : Z) : res T :=
  rbind (Some (oassert (n0 <=? mean) (Ret tt))) (fun _ =>
    if mean =? n0 then ret (if (step =? 0)%Z then n1 else n0)
    else if (step =? 0)%Z then ret (texp (- mean))
    else if mean >? nofZ (uwrap (step + 1)) then
      rbind (poisson mean step) (fun p => rbind (igam fuel (nofZ step) mean) (fun g => ret (p / g)))
    else rbind (igam_nop fuel (nofZ step) mean) (fun x => ret (n1 / x))).
End Prob.
