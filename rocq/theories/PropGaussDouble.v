(** C60 in doubles: the normal density. *)
From Coq Require Import ZArith Reals SpecFloat Lra Lia.
From Flocq Require Import Core IEEE754.BinarySingleNaN.
From Verif Require Import Base Scalar ConstSpec B64Lib B64Ops RoundLib RoundProofs2 PropBoxDouble GaussDouble.
From Verif Require Import ProbModel ProbDoubleModel ProbSpec ProbDoubleSpec RoundSpec.
Open Scope R_scope.

(** Gaussian(mean, stddev, x) in doubles, up to 24 standard deviations from the mean and with an exponential accurate to one unit in the last
    place: the relative error of the density is at most 4 d^2 + 8 rounding errors, d the distance from the mean in standard deviations. *)
Theorem C60_gaussian_double : forall (m : libm) (e l : spec_float -> spec_float) mean stddev x,
  (forall h, finite_double h -> -300 <= real h <= 0 -> exp_accurate_at e h) ->
  finite_double mean -> finite_double stddev -> finite_double x ->
  bpow radix2 (-300) <= Rabs (real stddev) <= bpow radix2 300 -> Rabs (real x - real mean) <= 24 * Rabs (real stddev) ->
  exists r, gaussian (H := B64 m) (H0 := Btrans e l) mean stddev x = Ret r /\ finite_double r /\
    Rabs (real r - normal_density (real mean) (real stddev) (real x)) <=
      (4 * ((real x - real mean) / real stddev) ^ 2 + 8) * half_ulp * normal_density (real mean) (real stddev) (real x).
Proof.
  intros m e l mu s x He Fm Fs Fx Bs Bd. apply fl_iff in Fm, Fs, Fx. rewrite Rabs_minus_sym in Bd. destruct (gaussian_close m e l mu s x He Fm Fs Fx Bs Bd) as (r & E & Fr & B). exists r. split; [exact E|]. split; [now apply fl_iff|].
  assert (S0 : val s <> 0). { intros Z. change (real s) with (val s) in Bs. rewrite Z, Rabs_R0 in Bs. pose proof (bpow_gt_0 radix2 (-300)). lra. }
  unfold normal_density. change (real x) with (val x). change (real s) with (val s). change (real mu) with (val mu). change (real r) with (val r). change half_ulp with u64.
  replace (((val x - val mu) / val s) ^ 2) with ((val mu - val x) / val s * ((val mu - val x) / val s)) by (field; auto).
  cbv zeta in B. set (w := (val mu - val x) / val s * ((val mu - val x) / val s)) in *. replace (- w / 2) with (- (w / 2)) by field. exact B.
Qed.
Print Assumptions C60_gaussian_double.

(** Non-vacuity: there is an exponential as accurate as that, namely the one that rounds the exact value to the nearest double; and
    Gaussian(1, 3, 9) is within the bounds. *)
Definition dexp : Z -> Z := FLT_exp (-1074) 53.
Definition best_exp (h : spec_float) : spec_float :=
  let y := rnd (exp (real h)) in SpecFloat.binary_normalize prec64 emax64 (Ztrunc (scaled_mantissa radix2 dexp y)) (cexp radix2 dexp y) false.
Lemma best_exp_accurate h : -300 <= real h <= 0 -> exp_accurate_at best_exp h.
Proof.
  intros B. set (x := exp (real h)). assert (X : bpow radix2 (-600) <= x <= 1).
  { unfold x. split.
    - apply Rle_trans with (exp (- 300)).
      + assert (E : forall k, exp (- INR k) = / exp 1 ^ k). { induction k as [|k IH]; [simpl; rewrite Ropp_0, exp_0; lra|]. rewrite S_INR. replace (- (INR k + 1)) with (- INR k + - (1)) by ring. rewrite exp_plus, IH, exp_Ropp. simpl. field. split; [apply pow_nonzero|]; pose proof (exp_pos 1); lra. }
        replace (-300) with (- INR 300) by (rewrite INR_IZR_INZ; reflexivity). rewrite E. change (-600)%Z with (Z.opp 600). rewrite bpow_opp. apply Rinv_le; [apply pow_lt, exp_pos|]. apply Rle_trans with (4 ^ 300).
        * apply pow_incr. pose proof (exp_pos 1). pose proof exp_le_3. lra.
        * right. change 4 with (IZR (radix_val radix2 * radix_val radix2)). rewrite mult_IZR. change 600%Z with (Z.of_nat (300 + 300)). rewrite bpow_powerRZ. rewrite <- pow_powerRZ. rewrite pow_add, Rpow_mult_distr. reflexivity.
      + destruct (proj1 B) as [L|L]; [left; apply exp_increasing; lra|right; now rewrite L].
    - rewrite <- exp_0. destruct (proj2 B) as [L|L]; [left; apply exp_increasing; lra|right; now rewrite L]. }
  set (y := rnd x). assert (G : generic_format radix2 dexp y) by (unfold y; rewrite rnd_FLT; apply generic_format_round; typeclasses eauto).
  unfold exp_accurate_at, best_exp. fold x. fold y. rewrite binary_normalize_equiv. set (mz := Ztrunc _). set (ez := cexp radix2 dexp y).
  pose proof (binary_normalize_correct prec64 emax64 _ _ mode_NE mz ez false) as C. cbn [round_mode] in C. assert (F : F2R (Float radix2 mz ez) = y) by (symmetry; exact G). rewrite F in C. fold (rnd y) in C.
  assert (I : rnd y = y) by (rewrite rnd_FLT; apply round_generic; [typeclasses eauto|exact G]). rewrite I in C. pose proof (bpow_gt_0 radix2 (-600)) as P600.
  assert (Y1 : Rabs y <= 1) by (apply (rnd_abs_le x 0); [lia|]; change (bpow radix2 0) with 1; rewrite Rabs_pos_eq; lra).
  rewrite Rlt_bool_true in C. 2:{ apply Rle_lt_trans with 1; [exact Y1|]. apply (bpow_lt radix2 0); unfold emax64; lia. }
  destruct C as (C1 & C2 & _). split; [apply fl_iff; split; [apply double_B|unfold finite; rewrite <- C2; apply is_finite_SF_B2SF]|].
  unfold real. rewrite SF2R_B2SF, C1. change half_ulp with u64. assert (R : Rabs (rnd x - x) <= u64 * Rabs x). { apply rnd_rel_err. rewrite Rabs_pos_eq by lra. apply Rle_trans with (bpow radix2 (-600)); [apply bpow_le; lia|lra]. }
  rewrite (Rabs_pos_eq x) in R by lra. fold y in R. eapply Rle_trans; [exact R|]. pose proof u64_pos as [U0 _]. assert (0 <= u64 * x) by (apply Rmult_le_pos; lra). lra.
Qed.
Example C60_gaussian_double_example : (forall h, finite_double h -> -300 <= real h <= 0 -> exp_accurate_at best_exp h) /\
  finite_double (b64_ofZ 1) /\ finite_double (b64_ofZ 3) /\ finite_double (b64_ofZ 9) /\
  bpow radix2 (-300) <= Rabs (real (b64_ofZ 3)) <= bpow radix2 300 /\ Rabs (real (b64_ofZ 9) - real (b64_ofZ 1)) <= 24 * Rabs (real (b64_ofZ 3)).
Proof.
  split; [intros h _; apply best_exp_accurate|]. do 3 (split; [apply fl_iff; split; vm_compute; reflexivity|]).
  change (real (b64_ofZ 3)) with (val (b64_ofZ 3)). change (real (b64_ofZ 9)) with (val (b64_ofZ 9)). change (real (b64_ofZ 1)) with (val (b64_ofZ 1)). rewrite v1, v3, v9.
  rewrite (Rabs_pos_eq 3), (Rabs_pos_eq (9 - 1)) by lra. split; [|lra]. split; [apply Rle_trans with (bpow radix2 0); [apply bpow_le; lia|change (bpow radix2 0) with 1; lra]|apply Rle_trans with (bpow radix2 2); [change (bpow radix2 2) with 4; lra|apply bpow_le; lia]].
Qed.
