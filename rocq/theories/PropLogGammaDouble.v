(** C59 in doubles: LogFactorial and Factorial from the cutoff on. *)
From Coq Require Import ZArith Reals SpecFloat Lra Lia.
From Flocq Require Import Core IEEE754.BinarySingleNaN.
From Verif Require Import Base Scalar ConstSpec LitProofs B64Lib B64Ops RoundLib RoundProofs2 PropBoxDouble PropGaussDouble PoissonDouble PropPoissonDouble LogGammaDouble.
From Verif Require Import ProbModel ProbDoubleModel ProbDoubleSpec RoundSpec.
Open Scope R_scope.

(** LogFactorial(n) in doubles for every n from 10 up to the largest unsigned int but one, with a logarithm accurate to one unit in the last place: the
    assertion on the series holds, and the error is at most 32 rounding errors of (n + 1) ln (n + 1), and what the wrong coefficient adds. *)
Theorem C59_log_factorial_double : forall (m : libm) (e l : spec_float -> spec_float) n,
  (forall x, finite_double x -> 11 <= real x <= bpow radix2 32 -> log_accurate_at l x) -> (10 <= n < 2 ^ 32 - 1)%Z ->
  let N := IZR n + 1 in
  exists v, log_factorial (H := B64 m) (H0 := Btrans e l) n = Some (Ret v) /\ finite_double v /\
    Rabs (real v - ln (INR (fact (Z.to_nat n)))) <= 32 * half_ulp * (N * ln N) + 1 / 30000 / N ^ 7.
Proof.
  intros m e l n Hl Hn N. destruct (log_factorial_double m e l n Hl Hn) as (v & E & F & B). exists v. split; [exact E|]. split; [now apply fl_iff|exact B].
Qed.
Print Assumptions C59_log_factorial_double.

(** Factorial(n) in doubles for every n from 10 to 170, the last whose factorial is a double. *)
Theorem C59_factorial_double : forall (m : libm) (e l : spec_float -> spec_float) n,
  (forall h, finite_double h -> 0 <= real h <= 709 -> exp_accurate_at e h) ->
  (forall x, finite_double x -> 11 <= real x <= bpow radix2 32 -> log_accurate_at l x) -> (10 <= n <= 170)%Z ->
  let N := IZR n + 1 in let f := INR (fact (Z.to_nat n)) in
  exists v, factorial (H := B64 m) (H0 := Btrans e l) n = Some (Ret v) /\ finite_double v /\
    Rabs (real v - f) <= (33 * half_ulp * (N * ln N) + 3 * half_ulp + 1 / 29000 / N ^ 7) * f.
Proof.
  intros m e l n He Hl Hn N f. destruct (factorial_double m e l n He Hl Hn) as (v & E & F & B). exists v. split; [exact E|]. split; [now apply fl_iff|exact B].
Qed.
Print Assumptions C59_factorial_double.

(** Non-vacuity: such an exponential and such a logarithm exist. *)
Lemma ln2_lower : 0.6931 <= ln 2.
Proof.
  destruct log2_within as [W1 _]. rewrite ten52 in W1. assert (T : 0 < IZR (10 ^ 52)) by (apply IZR_lt; reflexivity). eapply Rle_trans; [|exact W1]. apply Rmult_le_reg_r with (IZR (10 ^ 52)); [exact T|]. unfold Rdiv. rewrite Rmult_assoc, Rinv_l, Rmult_1_r by lra.
  apply Rle_trans with (IZR (6931 * 10 ^ 48)); [right|apply IZR_le; vm_compute; discriminate]. change (10 ^ 52)%Z with (10000 * 10 ^ 48)%Z. rewrite !mult_IZR. lra.
Qed.
Lemma exp_range h : -700 <= h <= 709 -> bpow radix2 (-1022) <= exp h <= bpow radix2 1023.
Proof.
  intros B. pose proof ln2_lower. rewrite <- (exp_ln (bpow radix2 (-1022))), <- (exp_ln (bpow radix2 1023)) by apply bpow_gt_0. rewrite !ln_bpow. assert (M : forall x y, x <= y -> exp x <= exp y) by (intros x y [L| ->]; [left; now apply exp_increasing|lra]). split; apply M; lra.
Qed.
Lemma best_exp_wide h : -700 <= real h <= 709 -> exp_accurate_at best_exp h.
Proof.
  intros B. set (x := exp (real h)). assert (X : bpow radix2 (-1022) <= x <= bpow radix2 1023) by now apply exp_range.
  set (y := rnd x). assert (G : generic_format radix2 dexp y) by (unfold y; rewrite rnd_FLT; apply generic_format_round; typeclasses eauto).
  unfold exp_accurate_at, best_exp. fold x. fold y. rewrite binary_normalize_equiv. set (mz := Ztrunc _). set (ez := cexp radix2 dexp y).
  pose proof (binary_normalize_correct prec64 emax64 _ _ mode_NE mz ez false) as C. cbn [round_mode] in C. assert (F : F2R (Float radix2 mz ez) = y) by (symmetry; exact G). rewrite F in C. fold (rnd y) in C.
  assert (I : rnd y = y) by (rewrite rnd_FLT; apply round_generic; [typeclasses eauto|exact G]). rewrite I in C. pose proof (bpow_gt_0 radix2 (-1022)) as P.
  assert (Y1 : Rabs y <= bpow radix2 1023) by (apply (rnd_abs_le x 1023); [lia|]; rewrite Rabs_pos_eq; lra).
  rewrite Rlt_bool_true in C. 2:{ eapply Rle_lt_trans; [exact Y1|]. apply bpow_lt; unfold emax64; lia. }
  destruct C as (C1 & C2 & _). split; [apply fl_iff; split; [apply double_B|unfold finite; rewrite <- C2; apply is_finite_SF_B2SF]|].
  unfold real. rewrite SF2R_B2SF, C1. change half_ulp with u64. assert (R : Rabs (rnd x - x) <= u64 * Rabs x) by (apply rnd_rel_err; rewrite Rabs_pos_eq; lra).
  rewrite (Rabs_pos_eq x) in R by lra. fold y in R. eapply Rle_trans; [exact R|]. pose proof u64_pos as [U0 _]. assert (0 <= u64 * x) by (apply Rmult_le_pos; lra). lra.
Qed.
Lemma best_log_wide v : bpow radix2 (-32) <= real v <= bpow radix2 32 -> log_accurate_at best_log v.
Proof.
  intros B. set (x := ln (real v)). assert (X : Rabs x <= bpow radix2 5).
  { pose proof (bpow_gt_0 radix2 (-32)) as P. pose proof ln2_small. change (bpow radix2 5) with 32. apply Rabs_le. unfold x. split.
    - apply Rle_trans with (ln (bpow radix2 (-32))); [rewrite ln_bpow; lra|]. destruct (proj1 B) as [L|L]; [left; apply ln_increasing; lra|right; now rewrite L].
    - apply Rle_trans with (ln (bpow radix2 32)); [|rewrite ln_bpow; lra]. destruct (proj2 B) as [L|L]; [left; apply ln_increasing; lra|right; now rewrite L]. }
  set (y := rnd x). assert (G : generic_format radix2 dexp y) by (unfold y; rewrite rnd_FLT; apply generic_format_round; typeclasses eauto).
  unfold log_accurate_at, best_log. fold x. fold y. rewrite binary_normalize_equiv. set (mz := Ztrunc _). set (ez := cexp radix2 dexp y).
  pose proof (binary_normalize_correct prec64 emax64 _ _ mode_NE mz ez false) as C. cbn [round_mode] in C. assert (F : F2R (Float radix2 mz ez) = y) by (symmetry; exact G). rewrite F in C. fold (rnd y) in C.
  assert (I : rnd y = y) by (rewrite rnd_FLT; apply round_generic; [typeclasses eauto|exact G]). rewrite I in C.
  assert (Y1 : Rabs y <= bpow radix2 5) by (apply (rnd_abs_le x 5); [lia|exact X]).
  rewrite Rlt_bool_true in C. 2:{ eapply Rle_lt_trans; [exact Y1|]. apply bpow_lt; unfold emax64; lia. }
  destruct C as (C1 & C2 & _). split; [apply fl_iff; split; [apply double_B|unfold finite; rewrite <- C2; apply is_finite_SF_B2SF]|].
  unfold real. rewrite SF2R_B2SF, C1. change half_ulp with u64. change half_tiny with eta64. pose proof (rnd_err x) as R. fold y in R. eapply Rle_trans; [exact R|]. pose proof u64_pos as [U0 _]. pose proof (Rabs_pos x). assert (0 <= u64 * Rabs x) by (apply Rmult_le_pos; lra). unfold x, real in *. lra.
Qed.
Example C59_double_example : (forall h, finite_double h -> 0 <= real h <= 709 -> exp_accurate_at best_exp h) /\
  (forall x, finite_double x -> 11 <= real x <= bpow radix2 32 -> log_accurate_at best_log x) /\ (10 <= 52 <= 170)%Z.
Proof.
  split; [intros h _ B; apply best_exp_wide; lra|]. split; [|lia]. intros x _ B. apply best_log_wide. assert (bpow radix2 (-32) <= 1) by (apply (bpow_le radix2 (-32) 0); lia). lra.
Qed.
