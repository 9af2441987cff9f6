(** The functions of probability.h.
    C53 (factorials and the coefficient table), C59 (LogGamma and LogFactorial above the cutoff), C60 (Gaussian and Poisson),
    C61 (the conditional probabilities).

    Unless the statement says otherwise arithmetic, exp and ln are those of the real numbers, and u is
    numeric_limits<FloatT>::epsilon(); 1/10^19 <= u holds of float, double and the extended formats, for double u = 2^-52. *)
From Coq Require Import ZArith Reals List Lra Lia Psatz Bool SpecFloat.
From Coquelicot Require Import Coquelicot.
From Flocq Require Import Core.Raux Core.Zaux IEEE754.BinarySingleNaN.
From Verif Require Import Base Scalar RLib B64Lib MiniballModel ProbModel Stirling GammaSpec GammaProofs BernoulliSpec ProbSpec ProbProofs ProbProofs2 ProbProofs3 ProbProofs4 ProbProofs5 ProbProofs6 ProbProofs7.
Import ListNotations.
Open Scope R_scope.

(** * C53 *)
Theorem C53_factorial_small : forall eps u n, (0 <= n < 10)%Z ->
  factorial (H := Rnum eps) (H0 := Rtrans u) n = Some (Ret (INR (fact (Z.to_nat n)))) /\
  log_factorial (H := Rnum eps) (H0 := Rtrans u) n = Some (Ret (ln (INR (fact (Z.to_nat n))))).
Proof. intros eps u n Hn. apply factorial_small. auto. Qed.
Print Assumptions C53_factorial_small.
(** In doubles, for any exp and log: Factorial is exact, and LogFactorial is the log given of the exact factorial. *)
Theorem C53_factorial_double : forall (m : libm) (t : Trans spec_float) n, (0 <= n < 10)%Z ->
  exists f, factorial (H := B64 m) (H0 := t) n = Some (Ret f) /\ finite f /\ val f = INR (fact (Z.to_nat n)) /\
    log_factorial (H := B64 m) (H0 := t) n = Some (Ret (if (n <=? 1)%Z then b64_ofZ 0 else tlog f)).
Proof.
  intros m t n Hn. exists (b64_ofZ (Z.of_nat (fact (Z.to_nat n)))).
  assert (C : (n = 0 \/ n = 1 \/ n = 2 \/ n = 3 \/ n = 4 \/ n = 5 \/ n = 6 \/ n = 7 \/ n = 8 \/ n = 9)%Z) by lia.
  assert (V : forall k, (k <= 9)%nat -> val (b64_ofZ (Z.of_nat (fact k))) = INR (fact k)).
  { intros k Hk. rewrite INR_IZR_INZ. do 10 (destruct k as [|k]; [vm_compute; lra|]). lia. }
  decompose [or] C; subst n; (split; [vm_compute; reflexivity|]; split; [vm_compute; reflexivity|]; split; [apply V; vm_compute; lia|]; reflexivity).
Qed.
Print Assumptions C53_factorial_double.
Example C53_factorial_7 : forall m t, exists f, factorial (H := B64 m) (H0 := t) 7 = Some (Ret f) /\ val f = 5040.
Proof. intros m t. destruct (C53_factorial_double m t 7 ltac:(lia)) as (f & E & _ & V & _). exists f. split; auto. rewrite V, INR_IZR_INZ. reflexivity. Qed.

(** Nine of the eleven coefficients are B_2k / (2k (2k-1)), k = j + 1 ... *)
Theorem C53_table_partial : forall eps b, bernoulli b -> forall j, (j < 11)%nat -> j <> 3%nat -> j <> 9%nat ->
  nth j (coeffs (H := Rnum eps)) 0 = b (2 * j + 2)%nat / (INR (2 * j + 2) * INR (2 * j + 1)).
Proof.
  intros eps b B j Hj N3 N9. destruct (table_values b B) as (B2 & B4 & B6 & B8 & B10 & B12 & B14 & B16 & B18 & B20 & B22). rewrite !INR_IZR_INZ.
  unfold coeffs, frac. destruct j as [|[|[|[|[|[|[|[|[|[|[|j]]]]]]]]]]]; try lia; (cbn [nth Nat.mul Nat.add Z.of_nat Pos.of_succ_nat Pos.succ]; change (@ndiv R (Rnum eps)) with Rdiv; change (@nofZ R (Rnum eps)) with IZR; first [rewrite B2|rewrite B4|rewrite B6|rewrite B10|rewrite B12|rewrite B14|rewrite B16|rewrite B18|rewrite B22]; field).
Qed.
Print Assumptions C53_table_partial.
(** ... and two are not: -1/1620 for -1/1680 and -174661/125400 for -174611/125400. *)
Theorem C53_table_refuted : forall eps b, bernoulli b ->
  nth 3 (coeffs (H := Rnum eps)) 0 <> b 8%nat / (INR 8 * INR 7) /\ nth 9 (coeffs (H := Rnum eps)) 0 <> b 20%nat / (INR 20 * INR 19).
Proof.
  intros eps b B. destruct (table_values b B) as (_ & _ & _ & B8 & _ & _ & _ & _ & _ & B20 & _). rewrite !INR_IZR_INZ.
  unfold coeffs, frac. cbn [nth Z.of_nat Pos.of_succ_nat Pos.succ]. change (@ndiv R (Rnum eps)) with Rdiv. change (@nofZ R (Rnum eps)) with IZR. rewrite B8, B20. split; lra.
Qed.
Print Assumptions C53_table_refuted.
Example C53_bernoulli : exists b, bernoulli b.
Proof. eexists. apply bernoulli_exists. Qed.

(** * C59 *)
(** LogFactorial and Factorial from the cutoff on.  Missing: an error below u, which is refuted below. *)
Theorem C59_log_factorial_partial : forall eps u n, 1 / 10 ^ 19 <= u -> (10 <= n < 2 ^ 32 - 1)%Z ->
  exists v, log_factorial (H := Rnum eps) (H0 := Rtrans u) n = Some (Ret v) /\
    factorial (H := Rnum eps) (H0 := Rtrans u) n = Some (Ret (exp v)) /\
    Rabs (v - ln (INR (fact (Z.to_nat n)))) <= u * ln (INR (fact (Z.to_nat n))) + 1 / 30000 / (IZR n + 1) ^ 7.
Proof.
  intros eps u n Hu Hn. destruct (log_factorial_close eps u n Hu Hn) as (v & E & B). exists v. destruct (log_factorial_big eps u n Hn) as (E1 & E2). split; auto. split; auto. rewrite E2, <- E1, E. reflexivity.
Qed.
Print Assumptions C59_log_factorial_partial.
(** The wrong coefficient is seen: LogFactorial(10) in doubles is off by more than 100 times the machine epsilon,
    although the loop stops only once a term is below that epsilon. *)
Theorem C59_log_factorial_accuracy_refuted : forall eps, let u := / 2 ^ 52 in
  exists v, log_factorial (H := Rnum eps) (H0 := Rtrans u) 10 = Some (Ret v) /\ 100 * u * ln (INR (fact 10)) < Rabs (v - ln (INR (fact 10))).
Proof.
  intros eps u. assert (Hu : u = 1 / 4503599627370496) by (unfold u; field). destruct (log_factorial_10 eps u ltac:(rewrite Hu; lra)) as (v & E & B). exists v. split; auto.
  assert (L : ln (INR (fact 10)) <= 22).
  { rewrite INR_IZR_INZ. vm_compute (Z.of_nat (fact 10)). apply Rle_trans with (ln (2 ^ 22)); [apply ln_mono; lra|]. rewrite <- (exp_ln 2) by lra. rewrite <- Rpower_pow by apply exp_pos. unfold Rpower. rewrite !ln_exp. pose proof (ln_upper 2 ltac:(lra)). replace (INR 22) with 22 by (rewrite INR_IZR_INZ; reflexivity). lra. }
  assert (100 * u * ln (INR (fact 10)) <= 2200 * u) by (rewrite Hu; lra). rewrite Rabs_left; rewrite Hu in *; lra.
Qed.
Print Assumptions C59_log_factorial_accuracy_refuted.
(** LogGamma against Euler's Gamma function, for every argument from 1/2 on: either the value is close, or the
    assertion that the series has ended fails, which needs a value of ln Gamma near 0. *)
Theorem C59_log_gamma_partial : forall eps u z g, 1 / 10 ^ 17 <= u -> 1 / 2 <= z -> is_Gamma z g ->
  (exists v, log_gamma (H := Rnum eps) (H0 := Rtrans u) z = Some (Ret v) /\ gamma (H := Rnum eps) (H0 := Rtrans u) z = Some (Ret (exp v)) /\
    Rabs (v - ln g) <= u * (Rabs (ln g) + 1 / 120) + 1 / 30000 / Rmax z 10 ^ 7) \/
  (log_gamma (H := Rnum eps) (H0 := Rtrans u) z = Some AssertFail /\ Rabs (ln g) < 1 / 100).
Proof.
  intros eps u z g Hu Hz G. assert (U : 0 < u) by (assert (0 < 1 / 10 ^ 17) by (apply Rdiv_lt_0_compat; lra); lra). destruct (log_gamma_real eps u 1 z g U Hz G) as [(v & E & B)|(E & B)]; [left|right; split; auto; now apply B].
  exists v. split; auto. split; auto. unfold gamma. change (nleb nhalf z) with (Rle_bool (1 / 2) z). rewrite Rle_bool_true by auto. unfold log_gamma. rewrite E. reflexivity.
Qed.
Print Assumptions C59_log_gamma_partial.
(** Gamma has a value at every positive z; and at 1/2, and for whole arguments, it is what is known. *)
Example C59_gamma_exists : forall z, 0 < z -> exists g, is_Gamma z g /\ 0 < g.
Proof. intros z Hz. destruct (gamma_exists z Hz) as (p & G & _). exists (exp p). split; auto. apply exp_pos. Qed.
Example C59_gamma_known : is_Gamma (1 / 2) (sqrt PI) /\ forall n, is_Gamma (INR n + 1) (INR (fact n)).
Proof. split; [apply gamma_half|apply gamma_fact]. Qed.
(** For whole numbers there is no exception. *)
Theorem C59_log_gamma_whole : forall eps u n, 1 / 10 ^ 19 <= u -> (1 <= n)%nat ->
  exists v, log_gamma (H := Rnum eps) (H0 := Rtrans u) (INR n) = Some (Ret v) /\ Rabs (v - ln (INR (fact (n - 1)))) <= u * ln (INR (fact (n - 1))) + 1 / (3 * 10 ^ 11).
Proof. intros eps u n Hu Hn. destruct (log_gamma_whole eps u 1 n Hu Hn) as (v & E & B & _). exists v. split; auto. Qed.
Print Assumptions C59_log_gamma_whole.
(** The assertion does fail: on a whole interval of arguments between 2 and 3. *)
Theorem C59_log_gamma_assertion_refuted : forall eps, let u := / 2 ^ 52 in
  exists z0, 2 + 1 / 10 ^ 6 < z0 < 3 - 1 / 10 ^ 6 /\ forall z, Rabs (z - z0) <= 1 / 10 ^ 6 -> log_gamma (H := Rnum eps) (H0 := Rtrans u) z = Some AssertFail.
Proof. intros eps u. apply (log_gamma_crash eps u 1). assert (Hu : u = 1 / 4503599627370496) by (unfold u; field). rewrite Hu. lra. Qed.
Print Assumptions C59_log_gamma_assertion_refuted.
(** Below 1/2 the reflection formula is used. *)
Theorem C59_reflection : forall eps u z b, z < 1 / 2 -> log_gamma (H := Rnum eps) (H0 := Rtrans u) (1 - z) = Some (Ret b) ->
  log_gamma (H := Rnum eps) (H0 := Rtrans u) z = Some (Ret (ln PI - b - ln (Rabs (sin (PI * z))))) /\
  gamma (H := Rnum eps) (H0 := Rtrans u) z = Some (Ret (PI * exp (- b) / sin (PI * z))).
Proof.
  intros eps u z b Hz E. split; [apply log_gamma_reflect; auto|]. unfold gamma. change (nleb nhalf z) with (Rle_bool (1 / 2) z). rewrite Rle_bool_false by auto. change (nsub n1 z) with (1 - z). rewrite E. reflexivity.
Qed.
Print Assumptions C59_reflection.
(** The largest unsigned int: n + 1 is 0, and the value is that of LogGamma at its pole. *)
Theorem C59_log_factorial_wrap_refuted : forall eps u, log_factorial (H := Rnum eps) (H0 := Rtrans u) (2 ^ 32 - 1) = log_gamma (H := Rnum eps) (H0 := Rtrans u) 0.
Proof. intros eps u. apply log_factorial_wrap. Qed.
Print Assumptions C59_log_factorial_wrap_refuted.

(** * C60 *)
Theorem C60_gaussian : forall eps u mean stddev x,
  (stddev <> 0 -> gaussian (H := Rnum eps) (H0 := Rtrans u) mean stddev x = Ret (normal_density mean stddev x)) /\
  (stddev = 0 -> gaussian (H := Rnum eps) (H0 := Rtrans u) mean stddev x = AssertFail).
Proof. intros eps u mean stddev x. split; [apply gaussian_value|intros ->; apply gaussian_zero]. Qed.
Print Assumptions C60_gaussian.
(** Poisson(mean, n), exact below the cutoff; neither of the two assertions of the function can fail. *)
Theorem C60_poisson : forall eps u mean n, 1 / 10 ^ 19 <= u -> 0 <= mean -> (0 <= n < 2 ^ 32 - 1)%Z ->
  exists p, poisson (H := Rnum eps) (H0 := Rtrans u) mean n = Some (Ret p) /\
    within (if (n <? 10)%Z then 0 else u * ln (INR (fact (Z.to_nat n))) + 1 / 30000 / (IZR n + 1) ^ 7) p (poisson_pmf mean (Z.to_nat n)).
Proof. intros eps u mean n Hu Hm Hn. apply (poisson_value eps u mean n Hu Hm Hn). Qed.
Print Assumptions C60_poisson.
Theorem C60_poisson_small : forall eps u mean n, 1 / 10 ^ 19 <= u -> 0 <= mean -> (0 <= n < 10)%Z ->
  poisson (H := Rnum eps) (H0 := Rtrans u) mean n = Some (Ret (exp (- mean) * mean ^ Z.to_nat n / INR (fact (Z.to_nat n)))).
Proof.
  intros eps u mean n Hu Hm Hn. destruct (C60_poisson eps u mean n Hu Hm ltac:(lia)) as (p & E & W). destruct (Z.ltb_spec n 10) as [L|L]; [|lia]. apply within_0 in W. rewrite E, W. reflexivity.
Qed.
Print Assumptions C60_poisson_small.
Theorem C60_poisson_negative : forall eps u mean n, mean < 0 -> poisson (H := Rnum eps) (H0 := Rtrans u) mean n = Some AssertFail.
Proof. intros eps u mean n Hm. apply poisson_negative. auto. Qed.
Print Assumptions C60_poisson_negative.
Example C60_poisson_3 : poisson (H := Rnum 0) (H0 := Rtrans (/ 2 ^ 52)) 2 3 = Some (Ret (exp (-2) * 8 / 6)).
Proof.
  assert (Hu : / 2 ^ 52 = 1 / 4503599627370496) by field. rewrite (C60_poisson_small 0 (/ 2 ^ 52) 2 3) by (try rewrite Hu; lra || lia).
  change (-2) with (- (2)). change (Z.to_nat 3) with 3%nat. replace (INR (fact 3)) with 6 by (rewrite INR_IZR_INZ; reflexivity). do 2 f_equal. field.
Qed.

(** * C61 *)
(** PoissonConditional(mean, n) is P(X = n) / P(X >= n).  With a mean up to n + 1 the power series is used ... *)
Theorem C61_poisson_conditional : forall eps u mean n t, 1 / 10 ^ 19 <= u < 1 -> 0 < mean -> (1 <= n < 2 ^ 32 - 1)%Z -> mean <= IZR n + 1 ->
  poisson_tail mean (Z.to_nat n) t ->
  exists N, forall fuel, (N <= fuel)%nat -> exists h, poisson_conditional (H := Rnum eps) (H0 := Rtrans u) fuel mean n = Some (Ret h) /\
    poisson_pmf mean (Z.to_nat n) / t <= h <= poisson_pmf mean (Z.to_nat n) / t * (1 + u * (IZR n + 1)).
Proof. intros eps u mean n t. apply conditional_series. Qed.
Print Assumptions C61_poisson_conditional.
(** ... with a larger mean the continued fraction. *)
Theorem C61_poisson_conditional_large : forall eps u mean n t fuel, 1 / 10 ^ 19 <= u <= 1 / 100 -> (1 <= n < 2 ^ 32 - 1)%Z -> IZR n + 1 < mean ->
  poisson_tail mean (Z.to_nat n) t -> (Z.to_nat n <= fuel)%nat ->
  exists h, poisson_conditional (H := Rnum eps) (H0 := Rtrans u) fuel mean n = Some (Ret h) /\
    within (5 * u * ln (INR (fact (Z.to_nat n))) + 8 * u + 2 / 10 ^ 11) h (poisson_pmf mean (Z.to_nat n) / t).
Proof.
  intros eps u mean n t fuel Hu Hn Hm T F. destruct (conditional_fraction eps u mean n t fuel Hu Hn Hm T F) as (h & E & W). exists h. split; auto.
  assert (U : 0 < u) by (assert (0 < 1 / 10 ^ 19) by (apply Rdiv_lt_0_compat; lra); lra). assert (M : 0 < mean) by (assert (1 <= IZR n) by (apply IZR_le; lia); lra).
  assert (Q : 0 <= poisson_pmf mean (Z.to_nat n) / t).
  { destruct (tail_half mean (Z.to_nat n) t M) as (T2 & _); auto; [rewrite INR_IZR_INZ, Z2Nat.id by lia; lra|]. left. apply Rdiv_lt_0_compat; [apply pmf_pos; auto|lra]. }
  revert W. apply within_mono; auto. unfold lf_error, lg_error. set (N := Z.to_nat n). assert (HN : (1 <= N)%nat) by (unfold N; lia).
  assert (L : ln (INR (fact (N - 1))) <= ln (INR (fact N))) by (apply ln_mono; [apply INR_fact_lt_0|apply le_INR, fact_le; lia]). pose proof (ln_fact_nonneg N) as P.
  assert (u * ln (INR (fact (N - 1))) <= u * ln (INR (fact N))) by (apply Rmult_le_compat_l; lra). assert (0 <= u * ln (INR (fact N))) by (apply Rmult_le_pos; lra).
  destruct (Z.ltb_spec n 10) as [C|C]; [lra|]. assert (X : 1 / 30000 / (IZR n + 1) ^ 7 <= 1 / 30000 / 11 ^ 7). { unfold Rdiv at 1 3. apply Rmult_le_compat_l; [lra|]. apply Rinv_le_contravar; [lra|]. apply pow_incr. assert (10 <= IZR n) by (apply IZR_le; lia). lra. } lra.
Qed.
Print Assumptions C61_poisson_conditional_large.
(** Nothing is below 0. *)
Theorem C61_poisson_conditional_0 : forall eps u mean fuel, 0 <= mean ->
  poisson_conditional (H := Rnum eps) (H0 := Rtrans u) fuel mean 0 = Some (Ret (poisson_pmf mean 0)).
Proof. intros eps u mean fuel Hm. rewrite conditional_zero by auto. unfold poisson_pmf. cbn [pow fact INR]. do 2 f_equal. field. Qed.
Print Assumptions C61_poisson_conditional_0.
(** The probability not to be below n exists, and is positive. *)
Example C61_poisson_tail : forall mean n, 0 < mean -> exists t, poisson_tail mean n t.
Proof. intros mean n Hm. eexists. apply tail_exists. Qed.

(** GaussianConditional at the mean ... *)
Theorem C61_gaussian_conditional_partial : forall eps u mean stddev fuel tail, 0 < u -> stddev <> 0 -> normal_tail mean stddev tail ->
  gaussian_conditional (H := Rnum eps) (H0 := Rtrans u) fuel mean stddev mean = Some (Ret (normal_density mean stddev mean / tail mean)).
Proof. intros eps u mean stddev fuel tail Hu Hs (T & _). rewrite T. apply gaussian_conditional_mean; auto. Qed.
Print Assumptions C61_gaussian_conditional_partial.
(** ... is right, but a tenth of a standard deviation above it is too small by more than 0.5 per cent. *)
Theorem C61_gaussian_conditional_refuted : forall eps, let u := / 2 ^ 52 in
  exists N, forall fuel, (N <= fuel)%nat -> exists h, gaussian_conditional (H := Rnum eps) (H0 := Rtrans u) fuel 0 1 (1 / 10) = Some (Ret h) /\
    forall tail, normal_tail 0 1 tail -> 0 < h /\ h * tail (1 / 10) <= 995 / 1000 * normal_density 0 1 (1 / 10).
Proof. intros eps u. apply gaussian_conditional_off. assert (Hu : u = 1 / 4503599627370496) by (unfold u; field). rewrite Hu. lra. Qed.
Print Assumptions C61_gaussian_conditional_refuted.
Example C61_normal_tail : forall mean stddev, exists tail, normal_tail mean stddev tail.
Proof. exact normal_tail_exists. Qed.
