(** C60 in doubles: Poisson from the cutoff on, and the arguments that are refused. *)
From Coq Require Import ZArith Reals SpecFloat Lra Lia.
From Flocq Require Import Core IEEE754.BinarySingleNaN.
From Verif Require Import Base Scalar ConstSpec B64Lib B64Ops RoundLib RoundProofs2 SegDouble PropBoxDouble PropGaussDouble PropPoissonDouble SeriesDouble LogGammaDouble PropLogGammaDouble PoissonDouble2.
From Verif Require Import ProbModel ProbDoubleModel ProbSpec ProbDoubleSpec RoundSpec.
Open Scope R_scope.

(** Poisson(mean, n) in doubles for every n from 10 on, as long as the true probability is not below exp(-699), with an exponential and a logarithm
    accurate to one unit in the last place: no assertion fails.  The relative error is at most 5 (n |ln mean| + mean + ln n!) + 33 (n + 1) ln (n + 1) + 3
    rounding errors, and what the wrong coefficient of LogGamma adds. *)
Theorem C60_poisson_large_double : forall (m : libm) (e l : spec_float -> spec_float) mean n,
  (forall h, finite_double h -> -700 <= real h <= 0 -> exp_accurate_at e h) ->
  (forall x, finite_double x -> bpow radix2 (-32) <= real x <= bpow radix2 32 -> log_accurate_at l x) ->
  finite_double mean -> bpow radix2 (-32) <= real mean <= bpow radix2 32 -> (10 <= n < 2 ^ 32 - 1)%Z ->
  let k := Z.to_nat n in let N := IZR n + 1 in let S := INR k * Rabs (ln (real mean)) + real mean + ln (INR (fact k)) in
  exp (-699) <= poisson_pmf (real mean) k ->
  exists p, poisson (H := B64 m) (H0 := Btrans e l) mean n = Some (Ret p) /\ finite_double p /\
    Rabs (real p - poisson_pmf (real mean) k) <= ((5 * S + 33 * (N * ln N) + 3) * half_ulp + 1 / 29000 / N ^ 7) * poisson_pmf (real mean) k.
Proof.
  intros m e l mu n He Hl Fm Bm Hn k N S Hp. apply fl_iff in Fm. destruct (poisson_close_big m e l mu n He Hl Fm Bm Hn Hp) as (r & E & Fr & B). exists r. split; [exact E|]. split; [now apply fl_iff|exact B].
Qed.
Print Assumptions C60_poisson_large_double.
(** Poisson(16, 10). *)
Example C60_poisson_large_double_example : (forall h, finite_double h -> -700 <= real h <= 0 -> exp_accurate_at best_exp h) /\
  (forall x, finite_double x -> bpow radix2 (-32) <= real x <= bpow radix2 32 -> log_accurate_at best_log x) /\
  finite_double (b64_ofZ 16) /\ bpow radix2 (-32) <= real (b64_ofZ 16) <= bpow radix2 32 /\ (10 <= 10 < 2 ^ 32 - 1)%Z /\ exp (-699) <= poisson_pmf (real (b64_ofZ 16)) (Z.to_nat 10).
Proof.
  split; [intros h _ B; apply best_exp_wide; lra|]. split; [intros x _ B; now apply best_log_wide|]. destruct (ofZ_whole 16 ltac:(lia)) as [F V]. split; [now apply fl_iff|]. change (real (b64_ofZ 16)) with (val (b64_ofZ 16)). rewrite V.
  change (IZR 16) with (bpow radix2 4). split; [split; apply bpow_le; lia|]. split; [lia|]. change (bpow radix2 4) with 16. unfold poisson_pmf. change (Z.to_nat 10) with 10%nat.
  apply Rle_trans with (exp (- (16)) * 1); [rewrite Rmult_1_r; left; apply exp_increasing; lra|]. unfold Rdiv. rewrite Rmult_assoc. apply Rmult_le_compat_l; [left; apply exp_pos|]. pose proof (INR_fact_lt_0 10) as P. apply Rmult_le_reg_r with (INR (fact 10)); [exact P|]. rewrite Rmult_assoc, Rinv_l, Rmult_1_l, Rmult_1_r by lra.
  rewrite INR_IZR_INZ, pow_IZR. apply IZR_le. vm_compute. discriminate.
Qed.

(** The assertions in doubles: a negative mean and a mean that is no number are refused by Poisson and PoissonConditional, a standard deviation of 0, with
    either sign, by Gaussian and GaussianConditional; the mean 0 leaves only the value 0.  Nothing is assumed about exp and log. *)
Theorem C60_assertions_double : forall (m : libm) (e l : spec_float -> spec_float) steps mean x n s,
  (finite_double mean /\ real mean < 0 \/ mean = S754_nan \/ mean = S754_infinity true ->
     poisson (H := B64 m) (H0 := Btrans e l) mean n = Some AssertFail /\ poisson_conditional (H := B64 m) (H0 := Btrans e l) steps mean n = Some AssertFail) /\
  gaussian (H := B64 m) (H0 := Btrans e l) mean (S754_zero s) x = AssertFail /\ gaussian_conditional (H := B64 m) (H0 := Btrans e l) steps mean (S754_zero s) x = Some AssertFail /\
  poisson (H := B64 m) (H0 := Btrans e l) (S754_zero s) n = Some (Ret (if (n =? 0)%Z then b64_ofZ 1 else b64_ofZ 0)) /\
  poisson_conditional (H := B64 m) (H0 := Btrans e l) steps (S754_zero s) n = Some (Ret (if (n =? 0)%Z then b64_ofZ 1 else b64_ofZ 0)).
Proof.
  intros m e l steps mean x n s. split; [|destruct s; repeat split].
  intros C. assert (L : SFleb (b64_ofZ 0) mean = false).
  { destruct C as [[F B]|[-> | ->]]; [|reflexivity|reflexivity]. apply fl_iff in F. destruct (ofZ_whole 0 ltac:(lia)) as [F0 V0]. rewrite (leb_ok _ _ F0 F), V0. apply Rle_bool_false. exact B. }
  unfold poisson, poisson_conditional. change (nleb (Num := B64 m) (n0 (H := B64 m)) mean) with (SFleb (b64_ofZ 0) mean). rewrite L. split; reflexivity.
Qed.
Print Assumptions C60_assertions_double.
Example C60_assertions_double_example : finite_double (b64_ofZ (-3)) /\ real (b64_ofZ (-3)) < 0.
Proof. destruct (ofZ_whole (-3) ltac:(lia)) as [F V]. split; [now apply fl_iff|]. change (real (b64_ofZ (-3))) with (val (b64_ofZ (-3))). rewrite V. lra. Qed.
