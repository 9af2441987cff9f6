(** Stirling's formula for factorials with a bound for its error (used for C53 and C59). *)
From Coq Require Import Reals Lra Lia Psatz Arith.
From Coquelicot Require Import Coquelicot.
Open Scope R_scope.

(** * The logarithm of (1 + t) / (1 - t) *)
Definition ath (t : R) : R := (ln (1 + t) - ln (1 - t)) / 2.
Definition ath5 (t : R) : R := t + t ^ 3 / 3 + t ^ 5 / 5 + t ^ 7 / 7 + t ^ 9 / 9 + t ^ 11 / 11.

Lemma nonneg_from_derive f df t : 0 <= t -> (forall x, 0 <= x <= t -> is_derive f x (df x)) -> (forall x, 0 <= x <= t -> 0 <= df x) -> f 0 <= f t.
Proof.
  intros Ht D P. destruct (MVT_gen f 0 t df) as (c & Hc & E).
  - intros x Hx. rewrite Rmin_left, Rmax_right in Hx by lra. apply D. lra.
  - intros x Hx. rewrite Rmin_left, Rmax_right in Hx by lra. apply continuity_pt_filterlim. apply (ex_derive_continuous f). exists (df x). apply D. lra.
  - rewrite Rmin_left, Rmax_right in Hc by lra. specialize (P c Hc). nra.
Qed.
Lemma ath_lower t : 0 <= t < 1 -> ath5 t <= ath t.
Proof.
  intros Ht. pose proof (nonneg_from_derive (fun x => ath x - ath5 x) (fun x => x ^ 12 / (1 - x * x)) t) as G.
  cbv beta in G. assert (Z : ath 0 - ath5 0 = 0). { unfold ath, ath5. rewrite Rplus_0_r, Rminus_0_r, ln_1. field. }
  rewrite Z in G. cut (0 <= ath t - ath5 t); [lra|]. apply G; [lra| |].
  - intros x Hx. unfold ath, ath5. auto_derive; [lra|]. field. nra.
  - intros x Hx. apply Rmult_le_pos; [apply pow_le; lra|]. left. apply Rinv_0_lt_compat. nra.
Qed.
Lemma ath_upper t : 0 <= t < 1 -> ath t <= ath5 t + t ^ 13 / (13 * (1 - t * t)).
Proof.
  intros Ht. pose proof (nonneg_from_derive (fun x => ath5 x + x ^ 13 / (13 * (1 - x * x)) - ath x) (fun x => 2 * x ^ 14 / (13 * (1 - x * x) ^ 2)) t) as G.
  cbv beta in G. assert (Z : ath5 0 + 0 ^ 13 / (13 * (1 - 0 * 0)) - ath 0 = 0). { unfold ath, ath5. rewrite Rplus_0_r, Rminus_0_r, ln_1. field. }
  rewrite Z in G. cut (0 <= ath5 t + t ^ 13 / (13 * (1 - t * t)) - ath t); [lra|]. apply G; [lra| |].
  - intros x Hx. unfold ath, ath5. auto_derive; [repeat split; nra|]. field. repeat split; nra.
  - intros x Hx. apply Rmult_le_pos; [apply Rmult_le_pos; [lra|apply pow_le; lra]|]. left. apply Rinv_0_lt_compat. assert (0 < (1 - x * x) ^ 2) by (apply pow_lt; nra). lra.
Qed.

(** * One step of the sum *)
Definition stirl (z : R) : R := (z - 1 / 2) * ln z - z + ln (2 * PI) / 2 + 1 / 12 / z - 1 / 360 / z ^ 3 + 1 / 1260 / z ^ 5 - 1 / 1680 / z ^ 7.

Lemma step_expand z : 0 < z -> let t := / (2 * z + 1) in
  stirl (z + 1) - stirl z - ln z = ath t / t - 1 + 1 / 12 * (/ (z + 1) - / z) - 1 / 360 * (/ (z + 1) ^ 3 - / z ^ 3) + 1 / 1260 * (/ (z + 1) ^ 5 - / z ^ 5) - 1 / 1680 * (/ (z + 1) ^ 7 - / z ^ 7).
Proof.
  intros Hz t. unfold ath. replace (1 + t) with (2 * (z + 1) * t) by (unfold t; field; lra). replace (1 - t) with (2 * z * t) by (unfold t; field; lra).
  assert (0 < t) by (apply Rinv_0_lt_compat; lra). rewrite !ln_mult by lra. unfold stirl.
  replace ((ln 2 + ln (z + 1) + ln t - (ln 2 + ln z + ln t)) / 2 / t) with ((ln (z + 1) - ln z) * (z + 1 / 2)) by (unfold t; field; lra). field. lra.
Qed.

(** The rest is a rational function of x = 4 z (z + 1); its numerator has only positive coefficients. *)
Definition num_lower (x : R) : R := 1024 / 105 * x ^ 0 + 2304 / 35 * x ^ 1 + 8576 / 45 * x ^ 2 + 13808 / 45 * x ^ 3 + 93496 / 315 * x ^ 4 + 18118 / 105 * x ^ 5 + 17561 / 315 * x ^ 6 + 256 / 33 * x ^ 7.
Definition num_upper (x : R) : R := 65536 / 297 * x ^ 0 + 475136 / 297 * x ^ 1 + 52511744 / 10395 * x ^ 2 + 94291712 / 10395 * x ^ 3 + 15037312 / 1485 * x ^ 4 + 971056 / 135 * x ^ 5 + 333208 / 105 * x ^ 6 + 250286 / 315 * x ^ 7 + 353792 / 4095 * x ^ 8.

Lemma term_nonneg a n x : 0 <= a -> 0 <= x -> 0 <= a * x ^ n.
Proof. intros. apply Rmult_le_pos; auto. now apply pow_le. Qed.
Lemma num_lower_nonneg x : 0 <= x -> 0 <= num_lower x.
Proof. intros. unfold num_lower. repeat apply Rplus_le_le_0_compat; apply term_nonneg; auto; lra. Qed.
Lemma num_upper_nonneg x : 0 <= x -> 0 <= num_upper x.
Proof. intros. unfold num_upper. repeat apply Rplus_le_le_0_compat; apply term_nonneg; auto; lra. Qed.

Lemma step_lower z : 0 < z -> 0 <= stirl (z + 1) - stirl z - ln z.
Proof.
  intros Hz. rewrite step_expand by auto. set (t := / (2 * z + 1)). set (x := 4 * z * (z + 1)).
  assert (Hx : 0 < x) by (unfold x; nra). assert (Ht : 0 < t < 1). { unfold t. split; [apply Rinv_0_lt_compat; lra|]. rewrite <- Rinv_1. apply Rinv_lt_contravar; lra. }
  pose proof (ath_lower t ltac:(lra)) as L. assert (L' : ath5 t / t <= ath t / t) by (apply Rmult_le_compat_r; [left; apply Rinv_0_lt_compat; lra|auto]).
  match goal with |- 0 <= ath t / t - 1 + ?a - ?b + ?c - ?d => cut (0 <= ath5 t / t - 1 + a - b + c - d); [lra|] end.
  match goal with |- 0 <= ?e => replace e with (num_lower x / ((x + 1) ^ 5 * x ^ 7)) end.
  - apply Rmult_le_pos; [apply num_lower_nonneg; lra|]. left. apply Rinv_0_lt_compat. apply Rmult_lt_0_compat; apply pow_lt; lra.
  - replace (ath5 t / t - 1) with (1 / (3 * (x + 1)) + 1 / (5 * (x + 1) ^ 2) + 1 / (7 * (x + 1) ^ 3) + 1 / (9 * (x + 1) ^ 4) + 1 / (11 * (x + 1) ^ 5)).
    + unfold num_lower, x. field. repeat split; nra.
    + unfold ath5, t, x. field. repeat split; nra.
Qed.
Lemma step_upper z : 0 < z -> stirl (z + 1) - stirl z - ln z <= 1 / 1188 * (/ z ^ 9 - / (z + 1) ^ 9).
Proof.
  intros Hz. rewrite step_expand by auto. set (t := / (2 * z + 1)). set (x := 4 * z * (z + 1)).
  assert (Hx : 0 < x) by (unfold x; nra). assert (Ht : 0 < t < 1). { unfold t. split; [apply Rinv_0_lt_compat; lra|]. rewrite <- Rinv_1. apply Rinv_lt_contravar; lra. }
  pose proof (ath_upper t ltac:(lra)) as L. assert (L' : ath t / t <= (ath5 t + t ^ 13 / (13 * (1 - t * t))) / t) by (apply Rmult_le_compat_r; [left; apply Rinv_0_lt_compat; lra|auto]).
  match goal with |- ath t / t - 1 + ?a - ?b + ?c - ?d <= ?e => cut (0 <= e - ((ath5 t + t ^ 13 / (13 * (1 - t * t))) / t - 1 + a - b + c - d)); [lra|] end.
  match goal with |- 0 <= ?e => replace e with (num_upper x / ((x + 1) ^ 5 * x ^ 9)) end.
  - apply Rmult_le_pos; [apply num_upper_nonneg; lra|]. left. apply Rinv_0_lt_compat. apply Rmult_lt_0_compat; apply pow_lt; lra.
  - replace ((ath5 t + t ^ 13 / (13 * (1 - t * t))) / t - 1) with (1 / (3 * (x + 1)) + 1 / (5 * (x + 1) ^ 2) + 1 / (7 * (x + 1) ^ 3) + 1 / (9 * (x + 1) ^ 4) + 1 / (11 * (x + 1) ^ 5) + 1 / (13 * (x + 1) ^ 5 * x)).
    + unfold num_upper, x. field. repeat split; nra.
    + unfold ath5, t, x. field. repeat split; nra.
Qed.

(** * The constant: Wallis' integrals *)
Definition wal (n : nat) : R := RInt (fun x => sin x ^ n) 0 (PI / 2).
Lemma wal_cont n : forall x, continuous (fun x => sin x ^ n) x.
Proof. intros x. apply (ex_derive_continuous (fun x => sin x ^ n)). auto_derive. auto. Qed.
Lemma wal_ex n : ex_RInt (fun x => sin x ^ n) 0 (PI / 2).
Proof. apply (ex_RInt_continuous (V := R_CompleteNormedModule)). intros x _. apply wal_cont. Qed.
Lemma wal_0 : wal 0 = PI / 2.
Proof. unfold wal. cbn [pow]. rewrite RInt_const. unfold scal. cbn. unfold mult. cbn. ring. Qed.
Lemma wal_1 : wal 1 = 1.
Proof.
  unfold wal. apply is_RInt_unique. replace 1 with (minus (- cos (PI / 2)) (- cos 0)) by (rewrite cos_PI2, cos_0; unfold minus, plus, opp; cbn; ring).
  apply (is_RInt_derive (fun x => - cos x)).
  - intros x _. auto_derive; auto. ring.
  - intros x _. apply wal_cont.
Qed.
Lemma wal_step n : INR (n + 2) * wal (n + 2) = INR (n + 1) * wal n.
Proof.
  assert (I : is_RInt (fun x => INR (n + 1) * sin x ^ n - INR (n + 2) * sin x ^ (n + 2)) 0 (PI / 2) 0).
  { replace 0 with (minus (sin (PI / 2) ^ (n + 1) * cos (PI / 2)) (sin 0 ^ (n + 1) * cos 0)) at 2.
    2: { rewrite cos_PI2, sin_0, Rmult_0_r. rewrite pow_ne_zero by lia. unfold minus, plus, opp; cbn; ring. }
    apply (is_RInt_derive (fun x => sin x ^ (n + 1) * cos x)).
    - intros x _. auto_derive; auto. replace (Init.Nat.pred (n + 1)) with n by lia. replace (n + 2)%nat with (S (S n)) by lia. replace (n + 1)%nat with (S n) by lia. rewrite !S_INR. cbn [pow].
      assert (E : cos x * cos x = 1 - sin x * sin x) by (pose proof (sin2_cos2 x); unfold Rsqr in *; lra). 
      transitivity ((INR n + 1) * sin x ^ n * (cos x * cos x) - sin x * sin x * sin x ^ n); [ring|rewrite E; ring].
    - intros x _. apply (ex_derive_continuous (fun x => INR (n + 1) * sin x ^ n - INR (n + 2) * sin x ^ (n + 2))). auto_derive. auto. }
  pose proof (is_RInt_minus _ _ _ _ _ _ (is_RInt_scal _ _ _ (INR (n + 1)) _ (RInt_correct (V := R_CompleteNormedModule) _ _ _ (wal_ex n))) (is_RInt_scal _ _ _ (INR (n + 2)) _ (RInt_correct (V := R_CompleteNormedModule) _ _ _ (wal_ex (n + 2))))) as J.
  pose proof (is_RInt_unique _ _ _ _ I) as U1. pose proof (is_RInt_unique _ _ _ _ J) as U2.
  assert (E : minus (scal (INR (n + 1)) (wal n)) (scal (INR (n + 2)) (wal (n + 2))) = 0) by (rewrite <- U1; symmetry; exact U2).
  change (INR (n + 1) * wal n + - (INR (n + 2) * wal (n + 2)) = 0) in E. lra.
Qed.
Lemma wal_pos n : 0 < wal n /\ 0 < wal (S n).
Proof.
  induction n as [|n [I1 I2]]; [rewrite wal_0, wal_1; pose proof PI_RGT_0; lra|]. split; auto.
  pose proof (wal_step n) as E. replace (n + 2)%nat with (S (S n)) in E by lia. assert (0 < INR (S (S n))) by (apply lt_0_INR; lia). assert (0 < INR (n + 1)) by (apply lt_0_INR; lia). nra.
Qed.
Lemma wal_decr n : wal (S n) <= wal n.
Proof.
  unfold wal. apply RInt_le; [pose proof PI_RGT_0; lra|apply wal_ex|apply wal_ex|]. intros x Hx. cbn [pow].
  assert (0 <= sin x <= 1). { split; [apply sin_ge_0; pose proof PI_RGT_0; lra|]. apply SIN_bound. }
  pose proof (pow_le (sin x) n ltac:(lra)). nra.
Qed.
Lemma wal_prod n : INR (n + 1) * wal n * wal (S n) = PI / 2.
Proof.
  induction n as [|n IH]; [rewrite wal_0, wal_1; cbn; ring|]. pose proof (wal_step n) as E. rewrite <- IH.
  replace (S n + 1)%nat with (n + 2)%nat by lia. replace (S (S n)) with (n + 2)%nat by lia. transitivity (INR (n + 2) * wal (n + 2) * wal (S n)); [ring|]. rewrite E. ring.
Qed.
(** wal (2n) in terms of factorials *)
Lemma wal_even n : wal (2 * n) = PI / 2 * (INR (fact (2 * n)) / (4 ^ n * (INR (fact n) * INR (fact n)))).
Proof.
  induction n as [|n IH]; [change (2 * 0)%nat with 0%nat; rewrite wal_0; cbn; field|].
  pose proof (wal_step (2 * n)) as E. replace (2 * S n)%nat with (2 * n + 2)%nat by lia. rewrite IH in E.
  replace (2 * n + 2)%nat with (S (S (2 * n))) in * by lia. rewrite !fact_simpl, !mult_INR. cbn [pow].
  replace (2 * n + 1)%nat with (S (2 * n)) in E by lia. rewrite !S_INR in *. rewrite mult_INR in *. change (INR 2) with 2 in *.
  pose proof (pos_INR n). pose proof (INR_fact_lt_0 n). pose proof (INR_fact_lt_0 (2 * n)). assert (0 < 4 ^ n) by (apply pow_lt; lra).
  apply (Rmult_eq_reg_l (2 * INR n + 1 + 1)); [|lra]. rewrite E. field. repeat split; lra.
Qed.
(** the logarithm of the central binomial coefficient *)
Lemma central n : (1 <= n)%nat -> let a := ln (INR (fact (2 * n))) - 2 * ln (INR (fact n)) - 2 * INR n * ln 2 + (ln PI + ln (INR n)) / 2 in - / INR n <= a <= 0.
Proof.
  intros Hn a. assert (Nn : 1 <= INR n) by (apply (le_INR 1); auto). pose proof PI_RGT_0 as Pp.
  pose proof (INR_fact_lt_0 n) as F1. pose proof (INR_fact_lt_0 (2 * n)) as F2. assert (F4 : 0 < 4 ^ n) by (apply pow_lt; lra).
  set (q := INR (fact (2 * n)) / (4 ^ n * (INR (fact n) * INR (fact n)))).
  assert (Qp : 0 < q) by (apply Rdiv_lt_0_compat; auto; repeat apply Rmult_lt_0_compat; auto).
  assert (Lq : ln q = ln (INR (fact (2 * n))) - 2 * ln (INR (fact n)) - 2 * INR n * ln 2).
  { unfold q. rewrite ln_div; auto; [|repeat apply Rmult_lt_0_compat; auto]. rewrite !ln_mult; auto; [|apply Rmult_lt_0_compat; auto]. rewrite ln_pow by lra. replace 4 with (2 * 2) by lra. rewrite ln_mult by lra. ring. }
  assert (La : 2 * a = ln (q * q * (PI * INR n))) by (rewrite !ln_mult; try lra; try (apply Rmult_lt_0_compat; lra); unfold a; rewrite Lq; lra).
  pose proof (wal_even n) as W. fold q in W. pose proof (wal_prod (2 * n)) as P1. pose proof (wal_decr (2 * n)) as D1. destruct (wal_pos (2 * n)) as [W0 W1].
  destruct n as [|k]; [lia|]. pose proof (wal_prod (2 * k + 1)) as P2. replace (S (2 * k + 1)) with (2 * S k)%nat in P2 by lia. replace (2 * k + 1 + 1)%nat with (2 * S k)%nat in P2 by lia.
  pose proof (wal_decr (2 * k + 1)) as D2. replace (S (2 * k + 1)) with (2 * S k)%nat in D2 by lia. set (N := INR (S k)) in *.
  replace (INR (2 * S k + 1)) with (2 * N + 1) in P1 by (rewrite plus_INR, mult_INR; unfold N; cbn [INR]; lra). replace (INR (2 * S k)) with (2 * N) in P2 by (rewrite mult_INR; unfold N; cbn [INR]; lra).
  set (w := wal (2 * S k)) in *. set (w' := wal (S (2 * S k))) in *. set (w'' := wal (2 * k + 1)) in *.
  (* w * w * (2 N) <= PI / 2 <= (2 N + 1) w w *)
  assert (A1 : 2 * N * (w * w) <= PI / 2) by nra. assert (A2 : PI / 2 <= (2 * N + 1) * (w * w)) by nra.
  assert (Ew : w * w = PI * PI / 4 * (q * q)) by (rewrite W; field).
  rewrite Ew in A1, A2. set (y := q * q * (PI * N)) in *. assert (Yp : 0 < y) by (unfold y; apply Rmult_lt_0_compat; [apply Rmult_lt_0_compat; exact Qp|apply Rmult_lt_0_compat; lra]).
  assert (Y1 : y <= 1). { assert (X : PI / 2 * y <= PI / 2 * 1) by (unfold y; lra). apply Rmult_le_reg_l in X; lra. }
  assert (Y2 : 1 - / N <= y).
  { assert (X : PI * 1 <= PI * ((2 + / N) / 2 * y)). { unfold y. replace (PI * ((2 + / N) / 2 * (q * q * (PI * N)))) with (PI * PI * (q * q) * (2 * N + 1) / 2) by (field; lra). lra. }
    apply Rmult_le_reg_l in X; [|lra]. assert (0 < / N) by (apply Rinv_0_lt_compat; lra). nra. }
  assert (U : ln y <= 0) by (rewrite <- ln_1; apply ln_le; auto).
  split; [|lra]. 
  assert (V : - (2 * / N) <= ln y); [|lra].
  assert (Yh : 2 / 3 <= y). { assert (X : PI * 1 <= PI * ((2 + / N) / 2 * y)). { unfold y. replace (PI * ((2 + / N) / 2 * (q * q * (PI * N)))) with (PI * PI * (q * q) * (2 * N + 1) / 2) by (field; lra). lra. } apply Rmult_le_reg_l in X; [|lra]. assert (/ N <= 1) by (rewrite <- Rinv_1; apply Rinv_le_contravar; lra). nra. }
  assert (Z : ln (/ y) <= / y - 1). { pose proof (exp_ineq1_le (ln (/ y))) as X. rewrite exp_ln in X by (apply Rinv_0_lt_compat; auto). lra. }
  rewrite ln_Rinv in Z by auto. assert (I : / y - 1 <= 2 * / N). { assert (0 < / y) by (apply Rinv_0_lt_compat; auto). assert (/ y <= 3 / 2) by (replace (3 / 2) with (/ (2 / 3)) by lra; apply Rinv_le_contravar; lra). assert (E : / y - 1 = / y * (1 - y)) by (field; lra). rewrite E. nra. }
  lra.
Qed.

(** * The error *)
Definition rest (n : nat) : R := ln (INR (fact n)) - stirl (INR n + 1).
Lemma rest_step n : 0 <= rest n - rest (S n) <= 1 / 1188 * (/ (INR n + 1) ^ 9 - / (INR (S n) + 1) ^ 9).
Proof.
  unfold rest. rewrite fact_simpl, mult_INR, S_INR. pose proof (pos_INR n). rewrite ln_mult by (try apply INR_fact_lt_0; lra).
  pose proof (step_lower (INR n + 1) ltac:(lra)). pose proof (step_upper (INR n + 1) ltac:(lra)). lra.
Qed.
Lemma rest_steps n m : 0 <= rest n - rest (n + m) <= 1 / 1188 * (/ (INR n + 1) ^ 9 - / (INR (n + m) + 1) ^ 9).
Proof.
  induction m as [|m IH]; [rewrite Nat.add_0_r; lra|]. pose proof (rest_step (n + m)) as S1. replace (n + S m)%nat with (S (n + m)) by lia. lra.
Qed.
Definition tail (z : R) : R := 1 / 12 / z - 1 / 360 / z ^ 3 + 1 / 1260 / z ^ 5 - 1 / 1680 / z ^ 7.
Lemma tail_bound z : 1 <= z -> 0 <= tail z <= / z.
Proof.
  intros Hz. unfold tail. set (y := / z). assert (Hy : 0 < y <= 1). { unfold y. split; [apply Rinv_0_lt_compat; lra|]. rewrite <- Rinv_1. apply Rinv_le_contravar; lra. }
  replace (1 / 12 / z - 1 / 360 / z ^ 3 + 1 / 1260 / z ^ 5 - 1 / 1680 / z ^ 7) with (y * (1 / 12 - 1 / 360 * y ^ 2 + 1 / 1260 * y ^ 4 - 1 / 1680 * y ^ 6)) by (unfold y; field; lra).
  assert (0 <= y ^ 2 <= 1). { split; [apply pow_le; lra|]. rewrite <- (pow1 2). apply pow_incr. lra. }
  assert (0 <= y ^ 4 <= 1). { split; [apply pow_le; lra|]. rewrite <- (pow1 4). apply pow_incr. lra. }
  assert (0 <= y ^ 6 <= 1). { split; [apply pow_le; lra|]. rewrite <- (pow1 6). apply pow_incr. lra. }
  set (k := 1 / 12 - 1 / 360 * y ^ 2 + 1 / 1260 * y ^ 4 - 1 / 1680 * y ^ 6). assert (0 <= k <= 1) by (unfold k; lra). nra.
Qed.
Lemma rest_small n : Rabs (rest n) <= 6 / (INR n + 1).
Proof.
  set (m := S n). set (z := INR n + 1). pose proof (pos_INR n) as Pn. assert (Ez : INR m = z) by (unfold m; rewrite S_INR; reflexivity).
  assert (Z1 : 1 <= z) by (unfold z; lra).
  pose proof (central m ltac:(unfold m; lia)) as C. cbv zeta in C. rewrite Ez in C.
  assert (E1 : ln (INR (fact m)) = stirl z + rest n + ln z). { unfold m. rewrite fact_simpl, mult_INR, S_INR, ln_mult by (try apply INR_fact_lt_0; lra). unfold rest. fold z. lra. }
  assert (E2 : ln (INR (fact (2 * m))) = stirl (2 * z) + rest (2 * n + 1) + ln (2 * z)).
  { replace (2 * m)%nat with (S (2 * n + 1)) by (unfold m; lia). rewrite fact_simpl, mult_INR, S_INR. unfold rest. replace (INR (2 * n + 1) + 1) with (2 * z) by (rewrite plus_INR, mult_INR; unfold z; cbn [INR]; lra).
    rewrite ln_mult by (try apply INR_fact_lt_0; lra). lra. }
  rewrite E1, E2 in C. pose proof PI_RGT_0 as Pp.
  assert (S1 : stirl z = (z - 1 / 2) * ln z - z + (ln 2 + ln PI) / 2 + tail z) by (unfold stirl, tail; rewrite (ln_mult 2 PI) by lra; lra).
  assert (S2 : stirl (2 * z) = (2 * z - 1 / 2) * (ln 2 + ln z) - 2 * z + (ln 2 + ln PI) / 2 + tail (2 * z)) by (unfold stirl, tail; rewrite (ln_mult 2 PI), (ln_mult 2 z) by lra; lra).
  rewrite S1, S2, (ln_mult 2 z) in C by lra.
  pose proof (tail_bound z Z1) as T1. pose proof (tail_bound (2 * z) ltac:(lra)) as T2. assert (I2 : / (2 * z) <= / z) by (apply Rinv_le_contravar; lra).
  assert (C' : - / z <= rest (2 * n + 1) - 2 * rest n + tail (2 * z) - 2 * tail z <= 0) by lra.
  pose proof (rest_steps n (n + 1)) as RS. replace (n + (n + 1))%nat with (2 * n + 1)%nat in RS by lia. fold z in RS.
  assert (J : / z ^ 9 <= / z). { apply Rinv_le_contravar; [lra|]. rewrite <- (pow_1 z) at 1. apply Rle_pow; auto; lia. }
  assert (K : 0 <= / (INR (2 * n + 1) + 1) ^ 9) by (left; apply Rinv_0_lt_compat, pow_lt; pose proof (pos_INR (2 * n + 1)); lra).
  assert (0 < / z) by (apply Rinv_0_lt_compat; lra). unfold Rdiv. apply Rabs_le. lra.
Qed.
Lemma inv_small (e k : R) : 0 < e -> 0 <= k -> exists m : nat, k / (INR m + 1) < e.
Proof.
  intros He Hk. destruct (archimed_cor1 (e / (k + 1))) as (m & H1 & H2); [apply Rdiv_lt_0_compat; lra|]. exists m.
  assert (0 < INR m) by (apply lt_0_INR; auto).
  assert (A : / (INR m + 1) < e / (k + 1)) by (eapply Rlt_trans; [apply Rinv_lt_contravar|exact H1]; nra).
  unfold Rdiv. destruct (Rle_lt_or_eq_dec 0 k Hk) as [Hk'|<-]; [|lra]. apply (Rmult_lt_compat_l k) in A; auto. eapply Rlt_trans; [exact A|].
  replace (k * (e / (k + 1))) with (e * (k / (k + 1))) by (field; lra). assert (k / (k + 1) < 1) by (apply Rmult_lt_reg_r with (k + 1); [lra|]; field_simplify; lra). nra.
Qed.
(** ln n! is between the formula and the formula with its next term, for every n. *)
Theorem stirling_bounds n : let z := INR n + 1 in 0 <= ln (INR (fact n)) - stirl z <= 1 / 1188 / z ^ 9.
Proof.
  intros z. change (0 <= rest n <= 1 / 1188 / z ^ 9). split.
  - destruct (Rle_lt_dec 0 (rest n)) as [|L]; auto. exfalso. destruct (inv_small (- rest n) 6 ltac:(lra) ltac:(lra)) as (m & Hm).
    pose proof (rest_steps n m) as RS. pose proof (rest_small (n + m)) as Q. apply Rabs_le_between in Q.
    assert (6 / (INR (n + m) + 1) <= 6 / (INR m + 1)). { unfold Rdiv. apply Rmult_le_compat_l; [lra|]. rewrite plus_INR. pose proof (pos_INR n). pose proof (pos_INR m). apply Rinv_le_contravar; lra. } lra.
  - destruct (Rle_lt_dec (rest n) (1 / 1188 / z ^ 9)) as [|L]; auto. exfalso. destruct (inv_small (rest n - 1 / 1188 / z ^ 9) 6 ltac:(lra) ltac:(lra)) as (m & Hm).
    pose proof (rest_steps n m) as RS. pose proof (rest_small (n + m)) as Q. apply Rabs_le_between in Q. fold z in RS.
    assert (6 / (INR (n + m) + 1) <= 6 / (INR m + 1)). { unfold Rdiv. apply Rmult_le_compat_l; [lra|]. rewrite plus_INR. pose proof (pos_INR n). pose proof (pos_INR m). apply Rinv_le_contravar; lra. }
    assert (0 <= / (INR (n + m) + 1) ^ 9) by (left; apply Rinv_0_lt_compat, pow_lt; pose proof (pos_INR (n + m)); lra). unfold Rdiv in *. lra.
Qed.
Print Assumptions stirling_bounds.
