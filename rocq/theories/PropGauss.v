(** C61, GaussianConditional everywhere: right beyond the square root of three standard deviations, wrong nearer the mean. *)
From Coq Require Import ZArith Reals List Lra Lia Psatz Bool.
From Coquelicot Require Import Coquelicot.
From Flocq Require Import Core.Raux.
From Verif Require Import Base Scalar RLib MiniballModel ProbModel ProbSpec ProbProofs ProbProofs3 ProbProofs6 ProbProofs7 GaussInt MillsProofs GaussProofs PropProb.
Open Scope R_scope.

(** At least the square root of three standard deviations from the mean, on either side, the answer is the density divided
    by P(X >= val), to 2 u (ln (1/u) + 2) of it, where u is the machine epsilon; the loop ends within (ln (1/u))^2 + 1 rounds. *)
Theorem C61_gaussian_conditional_far_partial : forall eps u mean stddev val tail fuel, 0 < u <= 1 / 100 -> 0 < stddev -> normal_tail mean stddev tail ->
  sqrt 3 * stddev <= Rabs (val - mean) -> ln (/ u) * ln (/ u) < INR fuel ->
  exists h, gaussian_conditional (H := Rnum eps) (H0 := Rtrans u) fuel mean stddev val = Some (Ret h) /\
    let truth := normal_density mean stddev val / tail val in
    0 < tail val < 1 /\ Rabs (h - truth) <= 2 * (u * (ln (/ u) + 2)) * truth.
Proof.
  intros eps u mean stddev val tail fuel Hu Hs T Hv Hf. destruct (conditional_far eps u mean stddev val Hs tail fuel Hu T Hv Hf) as (h & E & B). exists h. split; [exact E|]. cbv zeta. split; auto.
  rewrite (val_at mean stddev val Hs), (normal_shift mean stddev tail Hs T). set (x := (val - mean) / stddev). assert (B1 : forall y, bell y <= 1) by (intros y; unfold bell; rewrite <- exp_0; apply exp_mono; pose proof (pow2_ge_0 y); lra).
  destruct (Rle_or_lt 0 x) as [P|P]; [pose proof (ntail_bounds x P); specialize (B1 x); lra|]. pose proof (ntail_bounds (- x) ltac:(lra)) as Q. specialize (B1 (- x)). replace x with (- - x) by ring. rewrite ntail_mirror. lra.
Qed.
Print Assumptions C61_gaussian_conditional_far_partial.
Example C61_gaussian_conditional_far_example : exists tail, normal_tail 0 1 tail /\ sqrt 3 * 1 <= Rabs (2 - 0) /\ sqrt 3 * 1 <= Rabs (- 2 - 0) /\ exists fuel, ln (/ / 2 ^ 52) * ln (/ / 2 ^ 52) < INR fuel.
Proof.
  destruct (C61_normal_tail 0 1) as (tail & T). exists tail. split; auto. assert (sqrt 3 <= 2) by (replace 2 with (sqrt (2 * 2)) by (apply sqrt_square; lra); apply sqrt_le_1; lra). rewrite (Rabs_left (- 2 - 0)), Rabs_pos_eq by lra.
  split; [lra|]. split; [lra|]. destruct (nfloor_ex (ln (/ / 2 ^ 52) * ln (/ / 2 ^ 52))) as (n & Hn); [set (r := ln _); nra|]. exists (S n). rewrite S_INR. lra.
Qed.

(** Nearer the mean the probability is taken to be 1/2 - (e^(1/2) / 2) (1/2 - P(X >= val)), with e^(1/2) / 2 = 0.824... where there
    should be no factor: so the answer is always too small above the mean and too large below it. *)
Theorem C61_gaussian_conditional_near_refuted : forall eps u mean stddev val tail, 0 < u < 1 -> 0 < stddev -> normal_tail mean stddev tail ->
  Rabs (val - mean) < sqrt 3 * stddev ->
  exists N, forall fuel, (N <= fuel)%nat -> exists h, gaussian_conditional (H := Rnum eps) (H0 := Rtrans u) fuel mean stddev val = Some (Ret h) /\ 0 < h /\
    let wrong := 1 / 2 - exp (1 / 2) / 2 * (1 / 2 - tail val) in
    0 < wrong /\ Rabs (h - normal_density mean stddev val / wrong) <= 10 * u * (normal_density mean stddev val / wrong) /\
    (mean < val -> h * tail val < normal_density mean stddev val) /\ (val < mean -> normal_density mean stddev val < h * tail val).
Proof. intros eps u mean stddev val tail Hu Hs T Hv. apply conditional_near; auto. Qed.
Print Assumptions C61_gaussian_conditional_near_refuted.
(** At 1.7 standard deviations it is less than half of what it should be. *)
Theorem C61_gaussian_conditional_half_refuted : forall eps u, 0 < u <= 1 / 1000 ->
  exists N, forall fuel, (N <= fuel)%nat -> exists h, gaussian_conditional (H := Rnum eps) (H0 := Rtrans u) fuel 0 1 (17 / 10) = Some (Ret h) /\
    forall tail, normal_tail 0 1 tail -> 0 < h /\ h * tail (17 / 10) < 1 / 2 * normal_density 0 1 (17 / 10).
Proof.
  intros eps u Hu. destruct (normal_tail_exists 0 1) as (tail & T). destruct (C61_gaussian_conditional_near_refuted eps u 0 1 (17 / 10) tail ltac:(lra) ltac:(lra) T) as (N & HN).
  { rewrite Rabs_pos_eq by lra. assert (E : sqrt (17 / 10 * (17 / 10)) < sqrt 3) by (apply sqrt_lt_1; lra). rewrite sqrt_square in E by lra. lra. }
  exists N. intros fuel Hf. destruct (HN fuel Hf) as (h & E & Ph & W & B & _). exists h. split; auto. intros tail' T'. split; auto. rewrite (normal_standard tail' _ T'). rewrite (normal_standard tail _ T) in W, B.
  set (q := ntail (17 / 10)) in *. set (f := normal_density 0 1 (17 / 10)) in *. set (w := 1 / 2 - exp (1 / 2) / 2 * (1 / 2 - q)) in *. pose proof exp_half as Eh.
  assert (Ef : f = dens (17 / 10)) by (unfold f; rewrite normal_at by lra; replace ((17 / 10 - 0) / 1) with (17 / 10) by field; unfold Rdiv at 1; rewrite Rinv_1; ring).
  pose proof (mom_pos 1 (17 / 10) ltac:(lra)) as M. cbn [mom] in M. fold q in M. rewrite <- Ef in M. pose proof (ntail_bounds (17 / 10) ltac:(lra)) as (Q0 & _). fold q in Q0. assert (Pf : 0 < f) by (rewrite Ef; apply dens_pos).
  assert (Bb : bell (17 / 10) <= 1 / 4).
  { unfold bell. replace (- (17 / 10) ^ 2 / 2) with (- (1445 / 1000)) by field. rewrite exp_Ropp. replace (1 / 4) with (/ 4) by lra. apply Rinv_le_contravar; [lra|].
    assert (S : forall x, exp (2 * x) = exp x * exp x) by (intros; rewrite <- exp_plus; f_equal; ring).
    assert (BB : forall p q x y, 0 < p -> y = 2 * x -> q <= p * p -> p <= exp x -> q <= exp y) by (intros p0 q0 x y Hp -> Hq Hx; rewrite S; eapply Rle_trans; [exact Hq|apply Rmult_le_compat; lra]).
    assert (Y0 : 1045 / 1000 <= exp (1445 / 32000)) by (pose proof (exp_ineq1_le (1445 / 32000)); lra).
    assert (Y1 : 1092 / 1000 <= exp (1445 / 16000)) by (eapply BB; [| | |exact Y0]; lra).
    assert (Y2 : 1192 / 1000 <= exp (1445 / 8000)) by (eapply BB; [| | |exact Y1]; lra).
    assert (Y3 : 1420 / 1000 <= exp (1445 / 4000)) by (eapply BB; [| | |exact Y2]; lra).
    assert (Y4 : 2016 / 1000 <= exp (1445 / 2000)) by (eapply BB; [| | |exact Y3]; lra).
    eapply BB; [| | |exact Y4]; lra. }
  assert (Fb : f <= 1 / 4 / (244 / 100)).
  { rewrite Ef. unfold dens. assert (S2 : 244 / 100 <= sqrt (2 * PI)). { pose proof PI2_3_2. assert (A2 : sqrt (244 / 100 * (244 / 100)) <= sqrt (2 * PI)) by (apply sqrt_le_1; lra). rewrite sqrt_square in A2 by lra. lra. }
    unfold Rdiv at 1 2. apply Rmult_le_compat; [left; apply bell_pos|left; apply Rinv_0_lt_compat; lra|lra|apply Rinv_le_contravar; lra]. }
  assert (Qb : q <= 61 / 1000) by lra. assert (Wq : 2 * q * (101 / 100) < w). { unfold w. assert (exp (1 / 2) / 2 * (1 / 2 - q) <= 845 / 1000 * (1 / 2 - q)) by nra. lra. }
  assert (Hh : h * w <= f * (101 / 100)). { apply Rabs_le_between in B. assert (X : h <= f / w * (101 / 100)). { assert (0 < f / w) by (apply Rdiv_lt_0_compat; lra). nra. } replace (f * (101 / 100)) with (f / w * (101 / 100) * w) by (field; lra). apply Rmult_le_compat_r; lra. }
  assert (H1 : h * (2 * q * (101 / 100)) < h * w) by (apply Rmult_lt_compat_l; auto). lra.
Qed.
Print Assumptions C61_gaussian_conditional_half_refuted.
(** A negative standard deviation is accepted, and gives the answer at the mirror image of val: the other tail. *)
Theorem C61_gaussian_conditional_sign_partial : forall eps u fuel mean stddev val, stddev <> 0 ->
  gaussian_conditional (H := Rnum eps) (H0 := Rtrans u) fuel mean (- stddev) val = gaussian_conditional (H := Rnum eps) (H0 := Rtrans u) fuel mean stddev (2 * mean - val).
Proof.
  intros eps u fuel mean stddev val Hs. unfold gaussian_conditional. change (neqb (- stddev) n0) with (Req_bool (- stddev) 0). change (neqb stddev n0) with (Req_bool stddev 0). rewrite !Req_bool_false by lra. cbn [negb oassert rbind].
  change (ndiv (nsub val mean) (- stddev)) with ((val - mean) / - stddev). change (ndiv (nsub (2 * mean - val) mean) stddev) with ((2 * mean - val - mean) / stddev). replace ((val - mean) / - stddev) with ((2 * mean - val - mean) / stddev) by (field; auto).
  assert (G : gaussian (H := Rnum eps) (H0 := Rtrans u) mean (- stddev) val = gaussian (H := Rnum eps) (H0 := Rtrans u) mean stddev (2 * mean - val)).
  { rewrite !(gaussian_value eps u) by lra. unfold normal_density. rewrite Rabs_Ropp. do 2 f_equal. f_equal. f_equal. f_equal. simpl. field. auto. }
  rewrite G. change (nabs (nsub val mean)) with (Rabs (val - mean)). change (nabs (nsub (2 * mean - val) mean)) with (Rabs (2 * mean - val - mean)). replace (2 * mean - val - mean) with (- (val - mean)) by ring. rewrite Rabs_Ropp. reflexivity.
Qed.
Print Assumptions C61_gaussian_conditional_sign_partial.
(** so it is refuted there too: two standard deviations above the mean it is less than a fifth of what it should be *)
Theorem C61_gaussian_conditional_sign_refuted : forall eps u fuel tail, 0 < u <= 1 / 100 -> ln (/ u) * ln (/ u) < INR fuel -> normal_tail 0 (- 1) tail ->
  exists h, gaussian_conditional (H := Rnum eps) (H0 := Rtrans u) fuel 0 (- 1) 2 = Some (Ret h) /\ 0 < tail 2 /\ h * tail 2 < 1 / 5 * normal_density 0 (- 1) 2.
Proof.
  intros eps u fuel tail Hu Hf T. assert (EG := C61_gaussian_conditional_sign_partial eps u fuel 0 1 2 ltac:(lra)). replace (2 * 0 - 2) with (- 2) in EG by ring. change (- (1)) with (- 1) in EG. rewrite EG. clear EG.
  assert (ED : forall x, normal_density 0 (- 1) x = normal_density 0 1 x). { intros x. unfold normal_density. change (- 1) with (- (1)). rewrite Rabs_Ropp. do 2 f_equal. simpl. field. }
  assert (T1 : normal_tail 0 1 tail). { destruct T as (T0 & T). split; auto. intros a b. specialize (T a b). revert T. apply is_RInt_ext. intros t _. apply ED. }
  assert (S3 : sqrt 3 * 1 <= Rabs (- 2 - 0)). { rewrite Rabs_left by lra. assert (sqrt 3 <= 2) by (replace 2 with (sqrt (2 * 2)) by (apply sqrt_square; lra); apply sqrt_le_1; lra). lra. }
  destruct (C61_gaussian_conditional_far_partial eps u 0 1 (- 2) tail fuel Hu ltac:(lra) T1 S3 Hf) as (h & E & _ & B). exists h. split; auto. cbv zeta in B. rewrite ED. rewrite !(normal_standard tail _ T1) in *. change (- 2) with (- (2)) in B. rewrite ntail_mirror in B.
  assert (Ef : forall y, normal_density 0 1 y = dens y) by (intros y; rewrite normal_at by lra; replace ((y - 0) / 1) with y by field; unfold Rdiv at 1; rewrite Rinv_1; ring). rewrite !Ef in *. rewrite dens_mirror in B. set (f := dens 2) in *. assert (Pf : 0 < f) by apply dens_pos.
  pose proof (mom_pos 1 2 ltac:(lra)) as M. cbn [mom] in M. set (q := ntail 2) in *. pose proof (ntail_bounds 2 ltac:(lra)) as (Q0 & Q1). fold q f in M, Q0, Q1. split; auto.
  assert (B2 : bell 2 <= 1 / 6). { unfold bell. replace (- 2 ^ 2 / 2) with (- (2 * 1)) by field. rewrite exp_Ropp. replace (1 / 6) with (/ 6) by lra. apply Rinv_le_contravar; [lra|]. replace (2 * 1) with (1 + 1) by ring. rewrite exp_plus. pose proof exp_half.
    assert (Z : 5 / 2 <= exp 1). { assert (X : 125 / 100 <= exp (1 / 4)) by (pose proof (exp_ineq1_le (1 / 4)); lra). assert (X2 : 156 / 100 <= exp (1 / 2)) by (replace (1 / 2) with (1 / 4 + 1 / 4) by lra; rewrite exp_plus; nra).
      assert (X0 : 1125 / 1000 <= exp (1 / 8)) by (pose proof (exp_ineq1_le (1 / 8)); lra). assert (X1 : 1265 / 1000 <= exp (1 / 4)) by (replace (1 / 4) with (1 / 8 + 1 / 8) by lra; rewrite exp_plus; nra). assert (X3 : 1600 / 1000 <= exp (1 / 2)) by (replace (1 / 2) with (1 / 4 + 1 / 4) by lra; rewrite exp_plus; nra). replace 1 with (1 / 2 + 1 / 2) by lra. rewrite exp_plus. nra. } nra. }
  assert (Fb : f <= 1 / 6 / (244 / 100)).
  { unfold f, dens. assert (S2 : 244 / 100 <= sqrt (2 * PI)). { pose proof PI2_3_2. assert (A2 : sqrt (244 / 100 * (244 / 100)) <= sqrt (2 * PI)) by (apply sqrt_le_1; lra). rewrite sqrt_square in A2 by lra. lra. }
    unfold Rdiv at 1 2. apply Rmult_le_compat; [left; apply bell_pos|left; apply Rinv_0_lt_compat; lra|lra|apply Rinv_le_contravar; lra]. }
  assert (Qb : q <= 35 / 1000) by lra. pose proof (small_loss u Hu) as SL. apply Rabs_le_between in B. set (tr := f / (1 - q)) in *. assert (Etr : tr * (1 - q) = f) by (unfold tr; field; lra). assert (Ptr : 0 < tr) by (apply Rdiv_lt_0_compat; lra).
  assert (Hh : h <= 3 / 2 * tr) by nra. assert (Btr : tr <= 104 / 100 * f) by nra. assert (Hf2 : h <= 156 / 100 * f) by lra. assert (h * q <= 156 / 100 * f * q) by (apply Rmult_le_compat_r; lra). nra.
Qed.
Print Assumptions C61_gaussian_conditional_sign_refuted.
