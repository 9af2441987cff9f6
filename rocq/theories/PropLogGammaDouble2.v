(** C59 in doubles: LogGamma and Gamma at every double from the cutoff, 10, on, whole or not. *)
From Coq Require Import ZArith Reals SpecFloat Lra Lia.
From Flocq Require Import Core IEEE754.BinarySingleNaN.
From Verif Require Import Base Scalar ConstSpec B64Lib B64Ops RoundLib RoundProofs2 OrdLib PropBoxDouble PropGaussDouble PoissonDouble PropPoissonDouble Stirling GammaSpec GammaProofs LogGammaDouble PropLogGammaDouble LogGammaDouble2.
From Verif Require Import FloatOps SegDouble GaussDouble SeriesDouble LitModel LitProofs MiniballModel.
From Verif Require Import ProbModel ProbDoubleModel ProbDoubleSpec RoundSpec.
Open Scope R_scope.

(** LogGamma(z) in doubles against Euler's Gamma function, for every double z from 10 to 2^32, with a logarithm accurate to one unit in the last place:
    the assertion on the series holds, and the error is at most 32 rounding errors of z ln z, and what the wrong coefficient adds.
    Missing: arguments below 10, where the argument is shifted or reflected, and above 2^32. *)
Theorem C59_log_gamma_double_partial : forall (m : libm) (e l : spec_float -> spec_float) z g,
  (forall x, finite_double x -> 10 <= real x <= bpow radix2 32 -> log_accurate_at l x) ->
  finite_double z -> 10 <= real z <= bpow radix2 32 -> is_Gamma (real z) g ->
  exists v, log_gamma (H := B64 m) (H0 := Btrans e l) z = Some (Ret v) /\ finite_double v /\
    Rabs (real v - ln g) <= 32 * half_ulp * (real z * ln (real z)) + 1 / 30000 / real z ^ 7.
Proof.
  intros m e l z g Hl Fz Hz G. apply fl_iff in Fz. destruct (log_gamma_double m e l z g Hl Fz Hz G) as (_ & _ & v & E & F & B). exists v. split; [exact E|]. split; [now apply fl_iff|exact B].
Qed.
Print Assumptions C59_log_gamma_double_partial.

(** Gamma(z) in doubles, for every double z from 10 to 171 at which it is at most 2^1020. *)
Theorem C59_gamma_double_partial : forall (m : libm) (e l : spec_float -> spec_float) z g,
  (forall h, finite_double h -> 0 <= real h <= 709 -> exp_accurate_at e h) ->
  (forall x, finite_double x -> 10 <= real x <= bpow radix2 32 -> log_accurate_at l x) ->
  finite_double z -> 10 <= real z <= 171 -> is_Gamma (real z) g -> g <= bpow radix2 1020 ->
  exists v, gamma (H := B64 m) (H0 := Btrans e l) z = Some (Ret v) /\ finite_double v /\
    Rabs (real v - g) <= (33 * half_ulp * (real z * ln (real z)) + 3 * half_ulp + 1 / 29000 / real z ^ 7) * g.
Proof.
  intros m e l z g He Hl Fz Hz G Gb. apply fl_iff in Fz. destruct (gamma_double m e l z g He Hl Fz Hz G Gb) as (v & E & F & B). exists v. split; [exact E|]. split; [now apply fl_iff|exact B].
Qed.
Print Assumptions C59_gamma_double_partial.

(** Non-vacuity: such an exponential and such a logarithm exist, and 10.5 is a double at which Gamma is defined and below 2^1020. *)
Example C59_gamma_double_example : (forall h, finite_double h -> 0 <= real h <= 709 -> exp_accurate_at best_exp h) /\
  (forall x, finite_double x -> 10 <= real x <= bpow radix2 32 -> log_accurate_at best_log x) /\
  exists z g, finite_double z /\ real z = 21 / 2 /\ is_Gamma (real z) g /\ g <= bpow radix2 1020.
Proof.
  split; [apply C59_double_example|]. split; [intros x _ B; apply best_log_wide; assert (bpow radix2 (-32) <= 1) by (apply (bpow_le radix2 (-32) 0); lia); lra|].
  exists (SFdiv prec64 emax64 (b64_ofZ 21) (b64_ofZ 2)). set (z := SFdiv _ _ _ _).
  assert (V : real z = 21 / 2) by (vm_compute; lra). destruct (gamma_exists (21 / 2) ltac:(lra)) as (p & G & B). exists (exp p).
  split; [apply fl_iff; split; vm_compute; reflexivity|]. split; [exact V|]. rewrite V. split; [exact G|].
  rewrite <- (exp_ln (bpow radix2 1020)) by apply bpow_gt_0. rewrite ln_bpow. pose proof ln2_lower as L2. destruct constant_ok as (_ & _ & K0 & K1).
  assert (H11 : 10 <= 21 / 2 <= bpow radix2 32) by (change (bpow radix2 32) with (IZR (2 ^ 32)); split; [lra|apply Rle_trans with 12; [lra|apply IZR_le; lia]]). pose proof (ln_far _ H11) as [_ L]. unfold stirl in B.
  assert (P : p <= 1020 * ln 2) by lra. destruct P as [P| ->]; [left; now apply exp_increasing|lra].
Qed.

(** Special arguments, for any exponential and any logarithm that keeps NaN and infinity: LogGamma is exactly 0 at 1 and 2 and within 3/2 rounding errors of
    ln (sqrt pi) at 1/2; at NaN, and at infinity where the true value is infinite, LogGamma and Gamma fail the assertion that the series has ended. *)
Theorem C59_special_double : forall (m : libm) (e l : spec_float -> spec_float) half, l S754_nan = S754_nan -> l (S754_infinity false) = S754_infinity false ->
  finite_double half -> real half = 1 / 2 ->
  (forall z, finite_double z -> real z = 1 \/ real z = 2 -> log_gamma (H := B64 m) (H0 := Btrans e l) z = Some (Ret (S754_zero false))) /\
  (exists v, log_gamma (H := B64 m) (H0 := Btrans e l) half = Some (Ret v) /\ finite_double v /\ Rabs (real v - ln (sqrt PI)) <= 3 / 2 * half_ulp) /\
  log_gamma (H := B64 m) (H0 := Btrans e l) S754_nan = Some AssertFail /\ gamma (H := B64 m) (H0 := Btrans e l) S754_nan = Some AssertFail /\
  log_gamma (H := B64 m) (H0 := Btrans e l) (S754_infinity false) = Some AssertFail /\ gamma (H := B64 m) (H0 := Btrans e l) (S754_infinity false) = Some AssertFail.
Proof.
  intros m e l half Ln Li Fh Vh. apply fl_iff in Fh.
  assert (SN : forall s, stirling (H := B64 m) (H0 := Btrans e l) S754_nan s = AssertFail).
  { intros s. unfold stirling, stirling_start. change (tlog S754_nan) with (l S754_nan). rewrite Ln. destruct s; vm_compute; reflexivity. }
  assert (SI : stirling (H := B64 m) (H0 := Btrans e l) (S754_infinity false) (b64_ofZ 0) = AssertFail).
  { unfold stirling, stirling_start. change (tlog (S754_infinity false)) with (l (S754_infinity false)). rewrite Li. vm_compute. reflexivity. }
  assert (GN : log_gamma (H := B64 m) (H0 := Btrans e l) S754_nan = Some AssertFail).
  { transitivity (Some (stirling (H := B64 m) (H0 := Btrans e l) S754_nan (b64_ofZ 0))); [reflexivity|now rewrite SN]. }
  assert (GI : log_gamma (H := B64 m) (H0 := Btrans e l) (S754_infinity false) = Some AssertFail).
  { transitivity (Some (stirling (H := B64 m) (H0 := Btrans e l) (S754_infinity false) (b64_ofZ 0))); [reflexivity|now rewrite SI]. }
  split; [|split; [|split; [exact GN|split; [|split; [exact GI|]]]]].
  - intros z Fz Vz. apply fl_iff in Fz. change (real z) with (val z) in Vz. set (h := SFdiv prec64 emax64 (b64_ofZ 1) (b64_ofZ 2)). assert (Hh : fl h /\ val h = / 2) by (split; [split; vm_compute; reflexivity|vm_compute; lra]). destruct Hh as [Fh' Vh'].
    destruct (ofZ_whole 1 ltac:(lia)) as [F1 V1]. destruct (ofZ_whole 2 ltac:(lia)) as [F2 V2]. unfold log_gamma. cbn [log_gamma_]. change (nltb (Num := B64 m) z (nhalf (H := B64 m))) with (SFltb z h). change (neqb (Num := B64 m) z (nhalf (H := B64 m))) with (SFeqb z h).
    change (neqb (Num := B64 m) z (n1 (H := B64 m))) with (SFeqb z (b64_ofZ 1)). change (neqb (Num := B64 m) z (n2 (H := B64 m))) with (SFeqb z (b64_ofZ 2)). rewrite (ltb_ok _ _ Fz Fh'), (eqb_ok _ _ Fz Fh'), (eqb_ok _ _ Fz F1), (eqb_ok _ _ Fz F2), Vh', V1, V2.
    rewrite Rlt_bool_false, (Req_bool_false _ (/ 2)) by lra. destruct Vz as [Vz|Vz]; rewrite Vz; [rewrite Req_bool_true by lra|rewrite Req_bool_false, Req_bool_true by lra]; reflexivity.
  - set (h := SFdiv prec64 emax64 (b64_ofZ 1) (b64_ofZ 2)). assert (Hh : fl h /\ val h = / 2) by (split; [split; vm_compute; reflexivity|vm_compute; lra]). destruct Hh as [Fh' Vh'].
    exists (SFdiv prec64 emax64 (k_log_pi double_constants) (b64_ofZ 2)). destruct log_pi_ok as [Fp Bp]. pose proof log_pi_bounds as LP. destruct (ofZ_whole 2 ltac:(lia)) as [F2 V2]. pose proof u64_pos as [U0 _]. pose proof u_tiny16 as U.
    split.
    { unfold log_gamma. cbn [log_gamma_]. change (nltb (Num := B64 m) half (nhalf (H := B64 m))) with (SFltb half h). change (neqb (Num := B64 m) half (nhalf (H := B64 m))) with (SFeqb half h).
      change (real half) with (val half) in Vh. rewrite (ltb_ok _ _ Fh Fh'), (eqb_ok _ _ Fh Fh'), Vh, Vh', Rlt_bool_false, Req_bool_true by lra. reflexivity. }
    assert (UL : 0 <= u64 * ln PI <= u64 * 1.2) by (split; [apply Rmult_le_pos; lra|apply Rmult_le_compat_l; lra]). apply Rabs_le_inv in Bp as Bp'. assert (B2 : 2 <= big) by (apply (bpow_le radix2 1 1023); lia).
    destruct (div_ok (k_log_pi double_constants) (b64_ofZ 2) Fp F2 ltac:(rewrite V2; lra) ltac:(rewrite V2, Rabs_pos_eq; lra)) as [Fd Ed]. rewrite V2 in Ed. set (d := SFdiv prec64 emax64 (k_log_pi double_constants) (b64_ofZ 2)) in *. clearbody d. split; [apply fl_iff; exact Fd|].
    change (real d) with (val d). rewrite Ed. set (lp := val (k_log_pi double_constants)) in *. clearbody lp. assert (LS : ln (sqrt PI) = ln PI / 2). { pose proof PI_RGT_0 as Pp. assert (X : ln (sqrt PI * sqrt PI) = ln PI) by (rewrite sqrt_sqrt; lra). rewrite ln_mult in X by now apply sqrt_lt_R0. lra. } rewrite LS. change half_ulp with u64.
    pose proof (rnd_err (lp / 2)) as R. pose proof eta64_pos as E0. pose proof eta_u as E1. rewrite (Rabs_pos_eq (lp / 2)) in R by lra. assert (u64 * (lp / 2) <= u64 * 0.61) by (apply Rmult_le_compat_l; lra).
    apply Rabs_le_inv in R. apply Rabs_le. lra.
  - transitivity (rbind (log_gamma (H := B64 m) (H0 := Btrans e l) S754_nan) (fun g => ret (ndiv (Num := B64 m) (nmul (Num := B64 m) (npi (Num := B64 m)) (e (nopp (Num := B64 m) g))) (nsin (Num := B64 m) (nmul (Num := B64 m) (npi (Num := B64 m)) S754_nan))))); [reflexivity|]. rewrite GN. reflexivity.
  - transitivity (rbind (log_gamma (H := B64 m) (H0 := Btrans e l) (S754_infinity false)) (fun g => ret (e g))); [reflexivity|]. rewrite GI. reflexivity.
Qed.
Print Assumptions C59_special_double.
Example C59_special_example : exists l : spec_float -> spec_float, l S754_nan = S754_nan /\ l (S754_infinity false) = S754_infinity false /\
  (exists half, finite_double half /\ real half = 1 / 2) /\ l (b64_ofZ 1) = b64_ofZ 0.
Proof.
  exists (fun x => match x with S754_finite _ _ _ => b64_ofZ 0 | _ => x end). split; [reflexivity|]. split; [reflexivity|]. split; [|reflexivity].
  exists (SFdiv prec64 emax64 (b64_ofZ 1) (b64_ofZ 2)). split; [apply fl_iff; split; vm_compute; reflexivity|vm_compute; lra].
Qed.
