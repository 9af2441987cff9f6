(** C60 in doubles: Poisson below the cutoff. *)
From Coq Require Import ZArith Reals SpecFloat Lra Lia.
From Flocq Require Import Core IEEE754.BinarySingleNaN.
From Verif Require Import Base Scalar ConstSpec B64Lib B64Ops RoundLib RoundProofs2 PropBoxDouble PropGaussDouble PoissonDouble.
From Verif Require Import ProbModel ProbDoubleModel ProbSpec ProbDoubleSpec RoundSpec.
Open Scope R_scope.

(** Poisson(mean, n) in doubles for n below 10 and means up to 100, with an exponential and a logarithm accurate to one unit in the last place:
    no assertion fails, and the relative error is at most 5 (n |ln mean| + mean + ln n!) + 3 rounding errors. *)
Theorem C60_poisson_double : forall (m : libm) (e l : spec_float -> spec_float) mean n,
  (forall h, finite_double h -> -300 <= real h <= 0 -> exp_accurate_at e h) ->
  (forall x, finite_double x -> bpow radix2 (-20) <= real x <= bpow radix2 20 -> log_accurate_at l x) ->
  finite_double mean -> bpow radix2 (-20) <= real mean <= 100 -> (0 <= n < 10)%Z ->
  let k := Z.to_nat n in
  exists p, poisson (H := B64 m) (H0 := Btrans e l) mean n = Some (Ret p) /\ finite_double p /\
    Rabs (real p - poisson_pmf (real mean) k) <= (5 * (INR k * Rabs (ln (real mean)) + real mean + ln (INR (fact k))) + 3) * half_ulp * poisson_pmf (real mean) k.
Proof.
  intros m e l mu n He Hl Fm Bm Hn k. apply fl_iff in Fm. destruct (poisson_close m e l mu n He Hl Fm Bm Hn) as (r & E & Fr & B). exists r. split; [exact E|]. split; [now apply fl_iff|]. exact B.
Qed.
Print Assumptions C60_poisson_double.

(** Non-vacuity: such an exponential and such a logarithm exist; Poisson(3, 4). *)
Definition best_log (x : spec_float) : spec_float :=
  let y := rnd (ln (real x)) in SpecFloat.binary_normalize prec64 emax64 (Ztrunc (scaled_mantissa radix2 dexp y)) (cexp radix2 dexp y) false.
Lemma best_log_accurate v : bpow radix2 (-20) <= real v <= bpow radix2 20 -> log_accurate_at best_log v.
Proof.
  intros B. set (x := ln (real v)). pose proof (ln_range _ B) as X. fold x in X.
  set (y := rnd x). assert (G : generic_format radix2 dexp y) by (unfold y; rewrite rnd_FLT; apply generic_format_round; typeclasses eauto).
  unfold log_accurate_at, best_log. fold x. fold y. rewrite binary_normalize_equiv. set (mz := Ztrunc _). set (ez := cexp radix2 dexp y).
  pose proof (binary_normalize_correct prec64 emax64 _ _ mode_NE mz ez false) as C. cbn [round_mode] in C. assert (F : F2R (Float radix2 mz ez) = y) by (symmetry; exact G). rewrite F in C. fold (rnd y) in C.
  assert (I : rnd y = y) by (rewrite rnd_FLT; apply round_generic; [typeclasses eauto|exact G]). rewrite I in C.
  assert (Y1 : Rabs y <= bpow radix2 4) by (apply (rnd_abs_le x 4); [lia|]; change (bpow radix2 4) with 16; lra).
  rewrite Rlt_bool_true in C. 2:{ eapply Rle_lt_trans; [exact Y1|]. apply bpow_lt; unfold emax64; lia. }
  destruct C as (C1 & C2 & _). split; [apply fl_iff; split; [apply double_B|unfold finite; rewrite <- C2; apply is_finite_SF_B2SF]|].
  unfold real. rewrite SF2R_B2SF, C1. change half_ulp with u64. change half_tiny with eta64. pose proof (rnd_err x) as R. fold y in R. eapply Rle_trans; [exact R|]. pose proof u64_pos as [U0 _]. pose proof (Rabs_pos x). assert (0 <= u64 * Rabs x) by (apply Rmult_le_pos; lra). unfold x, real in *. lra.
Qed.
Example C60_poisson_double_example : (forall h, finite_double h -> -300 <= real h <= 0 -> exp_accurate_at best_exp h) /\
  (forall x, finite_double x -> bpow radix2 (-20) <= real x <= bpow radix2 20 -> log_accurate_at best_log x) /\
  finite_double (b64_ofZ 3) /\ bpow radix2 (-20) <= real (b64_ofZ 3) <= 100 /\ (0 <= 4 < 10)%Z.
Proof.
  split; [intros h _; apply best_exp_accurate|]. split; [intros x _; apply best_log_accurate|]. split; [apply fl_iff; split; vm_compute; reflexivity|].
  change (real (b64_ofZ 3)) with (val (b64_ofZ 3)). rewrite v3. split; [|lia]. split; [|lra]. apply Rle_trans with (bpow radix2 0); [apply bpow_le; lia|change (bpow radix2 0) with 1; lra].
Qed.
