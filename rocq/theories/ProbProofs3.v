(** Gaussian and Poisson (C60). *)
From Coq Require Import ZArith Reals List Lra Lia Psatz Bool.
From Coquelicot Require Import Coquelicot.
From Flocq Require Import Core.Raux.
From Verif Require Import Base Scalar RLib MiniballModel ProbModel Stirling GammaSpec GammaProofs ProbSpec ProbProofs ProbProofs2.
Import ListNotations.
Open Scope R_scope.

(** the factorial is above (n/e)^n by a factor e at least *)
Lemma fact_lower n : (1 <= n)%nat -> 1 <= ln (INR (fact n)) - (INR n * ln (INR n) - INR n).
Proof.
  induction n as [|n IH]; [lia|]. intros _. destruct n as [|n]; [cbn [fact INR Nat.mul Nat.add]; rewrite ln_1; lra|].
  specialize (IH ltac:(lia)). set (m := S n) in *. rewrite fact_simpl, mult_INR, S_INR. pose proof (INR_fact_lt_0 m). assert (1 <= INR m) by (change 1 with (INR 1); apply le_INR; unfold m; lia).
  rewrite ln_mult by lra. assert (L : INR m * (ln (INR m + 1) - ln (INR m)) <= 1).
  { rewrite <- ln_div by lra. pose proof (ln_upper ((INR m + 1) / INR m) ltac:(apply Rdiv_lt_0_compat; lra)) as Q. replace ((INR m + 1) / INR m - 1) with (/ INR m) in Q by (field; lra). apply (Rmult_le_compat_l (INR m)) in Q; [|lra]. rewrite Rinv_r in Q by lra. exact Q. }
  lra.
Qed.
Lemma poisson_peak m n : 0 < m -> (1 <= n)%nat -> INR n * ln m - m - ln (INR (fact n)) <= - 1.
Proof.
  intros Hm Hn. pose proof (fact_lower n Hn) as F. apply le_INR in Hn. change (INR 1) with 1 in Hn.
  assert (Q : INR n * (ln m - ln (INR n)) <= m - INR n). { rewrite <- ln_div by lra. pose proof (ln_upper (m / INR n) ltac:(apply Rdiv_lt_0_compat; lra)) as Q. apply (Rmult_le_compat_l (INR n)) in Q; [|lra]. replace (INR n * (m / INR n - 1)) with (m - INR n) in Q by (field; lra). exact Q. }
  lra.
Qed.
Lemma ln_fact_nonneg n : 0 <= ln (INR (fact n)).
Proof. rewrite <- ln_1. apply ln_mono; [lra|]. change 1 with (INR 1). apply le_INR. apply lt_O_fact. Qed.
Lemma pmf_exp m n : 0 < m -> poisson_pmf m n = exp (INR n * ln m - (m + ln (INR (fact n)))).
Proof.
  intros Hm. unfold poisson_pmf. replace (INR n * ln m - (m + ln (INR (fact n)))) with (- m + ln (m ^ n) + - ln (INR (fact n))) by (rewrite ln_pow by auto; ring).
  rewrite !exp_plus, exp_Ropp, (exp_Ropp (ln _)), !exp_ln by (try apply INR_fact_lt_0; apply pow_lt; auto). reflexivity.
Qed.
Lemma within_exp d a b : Rabs (a - b) <= d -> within d (exp a) (exp b).
Proof. intros H. apply Rabs_le_between in H. unfold within. rewrite <- !exp_plus. assert (M : forall x y, x <= y -> exp x <= exp y) by (intros x y [L| ->]; [left; now apply exp_increasing|lra]). split; apply M; lra. Qed.
Lemma within_0 p q : within 0 p q <-> p = q.
Proof. unfold within. rewrite Ropp_0, exp_0, Rmult_1_r. lra. Qed.

Section Prob.
Context (eps : Epsilon).
Variable u : R.
#[local] Hint Extern 0 (Num R) => exact (Rnum eps) : typeclass_instances.
#[local] Hint Extern 0 (Trans R) => exact (Rtrans u) : typeclass_instances.

Lemma gaussian_value mean stddev val : stddev <> 0 -> gaussian mean stddev val = Ret (normal_density mean stddev val).
Proof.
  intros Hs. unfold gaussian. change (neqb stddev n0) with (Req_bool stddev 0). rewrite Req_bool_false by auto. cbn [negb oassert]. f_equal. unfold normal_density. unfold n2. cbn [ndiv nmul nopp nsub nabs nofZ nsqrt2 texp tsqrt_pi Rnum Rtrans].
  f_equal; [f_equal; field; auto|]. f_equal. rewrite sqrt_mult by (try (left; apply PI_RGT_0); lra). ring.
Qed.
Lemma gaussian_zero mean val : gaussian mean 0 val = AssertFail.
Proof. unfold gaussian. change (neqb 0 n0) with (Req_bool 0 0). rewrite Req_bool_true by auto. reflexivity. Qed.

(** the error of the logarithm is never above 1/100 *)
Lemma log_factorial_coarse n : 1 / 10 ^ 19 <= u -> (10 <= n < 2 ^ 32 - 1)%Z ->
  exists v, log_factorial n = Some (Ret v) /\ Rabs (v - ln (INR (fact (Z.to_nat n)))) <= u * ln (INR (fact (Z.to_nat n))) + 1 / 30000 / (IZR n + 1) ^ 7 /\
   Rabs (v - ln (INR (fact (Z.to_nat n)))) <= 1 / 100.
Proof.
  intros Hu Hn. destruct (log_factorial_close eps u n Hu Hn) as (v & E & B). exists v. split; auto. split; auto.
  destruct (log_factorial_big eps u n Hn) as (E' & _). rewrite E' in E. assert (Q : INR (Z.to_nat n) = IZR n) by (rewrite INR_IZR_INZ, Z2Nat.id by lia; reflexivity).
  set (z := INR (Z.to_nat n) + 1) in *. assert (Hz : 10 <= z) by (unfold z; rewrite Q; assert (10 <= IZR n) by (apply IZR_le; lia); lra).
  unfold log_gamma in E. rewrite (log_gamma_far eps u) in E by auto.
  pose proof (stirling_bounds (Z.to_nat n)) as S. cbv zeta in S. fold z in S. unfold stirl in S.
  destruct (stirling_run eps u z 0 ltac:(lra)) as [(k & Hk & _ & Hs & Es)|(_ & Es)]; rewrite Es in E; [|discriminate]. assert (V : v = stirling_start z 0 + partial eps z k) by congruence. rewrite V. rewrite (start_split eps u), Rminus_0_r.
  pose proof (partial_close eps z _ _ k Hz Hk S) as C. eapply Rle_trans; [exact C|].
  destruct (terms eps z Hz) as (T0 & T1 & T2 & _). assert (E0 : term eps z 0 = 1 / 12 / z) by (unfold term; change (2 * 0 + 1)%nat with 1%nat; rewrite pow_1; reflexivity).
  assert (Z1 : 0 < / z <= 1 / 10) by (split; [apply Rinv_0_lt_compat; lra|replace (1 / 10) with (/ 10) by lra; apply Rinv_le_contravar; lra]).
  assert (Z0 : term eps z 0 <= 1 / 120) by (rewrite E0; unfold Rdiv in *; lra).
  pose proof (inv_pow_small z 7 Hz) as P7. 
  destruct k as [|[|[|k]]]; cbn [Nat.ltb Nat.leb]; [rewrite Rabs_pos_eq; lra|rewrite Rabs_left; lra|rewrite Rabs_pos_eq; lra|]. unfold Rdiv in *. lra.
Qed.

(** the error of LogFactorial as an exponent; none below ten *)
Definition lf_error (n : Z) : R := if (n <? 10)%Z then 0 else u * ln (INR (fact (Z.to_nat n))) + 1 / 30000 / (IZR n + 1) ^ 7.
Lemma log_factorial_all n : 1 / 10 ^ 19 <= u -> (0 <= n < 2 ^ 32 - 1)%Z ->
  exists v, log_factorial n = Some (Ret v) /\ Rabs (v - ln (INR (fact (Z.to_nat n)))) <= lf_error n /\ Rabs (v - ln (INR (fact (Z.to_nat n)))) <= 1 / 100.
Proof.
  intros Hu Hn. unfold lf_error. destruct (Z.ltb_spec n 10) as [L|L].
  - destruct (factorial_small eps u n ltac:(lia)) as (_ & E). exists (ln (INR (fact (Z.to_nat n)))). split; auto. rewrite Rminus_eq_0, Rabs_R0. lra.
  - apply log_factorial_coarse; auto. lia.
Qed.
Lemma log_poisson_value mean n : 1 / 10 ^ 19 <= u -> 0 < mean -> (0 <= n < 2 ^ 32 - 1)%Z ->
  exists l, log_poisson mean n = Some (Ret l) /\ Rabs (l - (INR (Z.to_nat n) * ln mean - (mean + ln (INR (fact (Z.to_nat n)))))) <= lf_error n.
Proof.
  intros Hu Hm Hn. unfold log_poisson. change (nltb n0 mean) with (Rlt_bool 0 mean). rewrite Rlt_bool_true by auto. cbn [oassert rbind].
  destruct (Z.eqb_spec n 0) as [->|N0].
  - exists (- mean). split; [reflexivity|]. change (Z.to_nat 0) with 0%nat. cbn [fact INR]. rewrite ln_1. unfold lf_error. cbn [Z.ltb Z.compare]. replace (_ - _) with 0 by ring. rewrite Rabs_R0. lra.
  - destruct (log_factorial_all n Hu ltac:(lia)) as (v & E & B1 & B2). rewrite E. cbn [rbind].
    pose proof (ln_fact_nonneg (Z.to_nat n)) as L0. pose proof (poisson_peak mean (Z.to_nat n) Hm ltac:(lia)) as Pk.
    assert (Q : nofZ n = INR (Z.to_nat n)) by (rewrite INR_IZR_INZ, Z2Nat.id by lia; reflexivity). rewrite Q.
    change (nadd mean v) with (mean + v). change (nltb n0 (mean + v)) with (Rlt_bool 0 (mean + v)). 
    change (nsub (nmul (INR (Z.to_nat n)) (tlog mean)) (mean + v)) with (INR (Z.to_nat n) * ln mean - (mean + v)).
    set (L := ln (INR (fact (Z.to_nat n)))) in *. apply Rabs_le_between in B2.
    assert (Hv : 0 < mean + v).
    { destruct (Z.ltb_spec n 10) as [G|G].
      - destruct (factorial_small eps u n ltac:(lia)) as (_ & E'). rewrite E' in E. assert (v = L) by (unfold L; congruence). lra.
      - pose proof (ln_fact (Z.to_nat n) ltac:(lia)). unfold L in *. lra. }
    rewrite Rlt_bool_true by auto. cbn [oassert]. change (nltb (INR (Z.to_nat n) * ln mean - (mean + v)) n0) with (Rlt_bool (INR (Z.to_nat n) * ln mean - (mean + v)) 0). rewrite Rlt_bool_true by lra. cbn [oassert].
    exists (INR (Z.to_nat n) * ln mean - (mean + v)). split; [reflexivity|]. replace (_ - _) with (- (v - L)) by ring. rewrite Rabs_Ropp. exact B1.
Qed.
Lemma lf_error_nonneg n : 1 / 10 ^ 19 <= u -> (0 <= n)%Z -> 0 <= lf_error n.
Proof.
  intros Hu Hn. unfold lf_error. destruct (n <? 10)%Z; [lra|]. assert (0 < 1 / 10 ^ 19) by (apply Rdiv_lt_0_compat; lra). pose proof (ln_fact_nonneg (Z.to_nat n)).
  apply Rplus_le_le_0_compat; [nra|]. unfold Rdiv. apply Rmult_le_pos; [lra|]. left. apply Rinv_0_lt_compat, pow_lt. pose proof (IZR_le _ _ Hn). lra.
Qed.
Lemma poisson_value mean n : 1 / 10 ^ 19 <= u -> 0 <= mean -> (0 <= n < 2 ^ 32 - 1)%Z ->
  exists p, poisson mean n = Some (Ret p) /\ within (lf_error n) p (poisson_pmf mean (Z.to_nat n)).
Proof.
  intros Hu Hm Hn. unfold poisson. change (nleb n0 mean) with (Rle_bool 0 mean). rewrite Rle_bool_true by auto. cbn [oassert rbind]. change (neqb mean n0) with (Req_bool mean 0). destruct (Req_bool_spec mean 0) as [->|N].
  - exists (if (n =? 0)%Z then 1 else 0). split; [destruct (n =? 0)%Z; reflexivity|]. assert (P : poisson_pmf 0 (Z.to_nat n) = if (n =? 0)%Z then 1 else 0).
    { unfold poisson_pmf. rewrite Ropp_0, exp_0. destruct (Z.eqb_spec n 0) as [->|N0]; [cbn; lra|]. rewrite pow_i by lia. unfold Rdiv. ring. }
    rewrite P. pose proof (lf_error_nonneg n Hu ltac:(lia)) as Q. unfold within. destruct (n =? 0)%Z; [|lra]. rewrite !Rmult_1_l. split.
    + apply Rle_trans with (exp 0); [|rewrite exp_0; lra]. destruct (Rle_lt_or_eq_dec _ _ Q) as [L|<-]; [left; apply exp_increasing; lra|rewrite Ropp_0; lra].
    + pose proof (exp_ineq1_le (lf_error n)). lra.
  - destruct (log_poisson_value mean n Hu ltac:(lra) Hn) as (l & E & B). rewrite E. cbn [rbind]. exists (exp l). split; [reflexivity|]. rewrite (pmf_exp mean) by lra. now apply within_exp.
Qed.
Lemma poisson_negative mean n : mean < 0 -> poisson mean n = Some AssertFail.
Proof. intros Hm. unfold poisson. change (nleb n0 mean) with (Rle_bool 0 mean). rewrite Rle_bool_false by auto. reflexivity. Qed.
End Prob.
