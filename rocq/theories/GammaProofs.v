(** Gauss's limit exists for positive numbers, satisfies the functional equation, is the factorial at the integers
    and is bounded by Stirling's series (C59). *)
From Coq Require Import Reals Lra Lia Psatz Arith.
From Coquelicot Require Import Coquelicot.
From Verif Require Import Stirling GammaSpec.
Open Scope R_scope.

Lemma ln_mono' x y : 0 < x -> x <= y -> ln x <= ln y.
Proof. intros Hx [L| ->]; [left; now apply ln_increasing|lra]. Qed.
Lemma ln_upper x : 0 < x -> ln x <= x - 1.
Proof. intros Hx. pose proof (exp_ineq1_le (ln x)) as E. rewrite exp_ln in E by auto. lra. Qed.
Lemma ln_lower x : 0 < x -> 1 - / x <= ln x.
Proof. intros Hx. pose proof (ln_upper (/ x) (Rinv_0_lt_compat _ Hx)) as E. rewrite ln_Rinv in E by auto. lra. Qed.
Lemma rising_pos z n : 0 < z -> 0 < rising z n.
Proof. intros Hz. induction n as [|n IH]; cbn [rising]; auto. pose proof (pos_INR (S n)). apply Rmult_lt_0_compat; lra. Qed.
Lemma rising_head z n : rising z (S n) = z * rising (z + 1) n.
Proof. induction n as [|n IH]; [cbn [rising INR]; ring|]. replace (rising z (S (S n))) with (rising z (S n) * (z + INR (S (S n)))) by reflexivity. rewrite IH. cbn [rising]. rewrite (S_INR (S n)). ring. Qed.

(** stirl (z + n + 1) less the logarithm of the product grows to a limit *)
Definition growth (z : R) (n : nat) : R := stirl (z + INR n + 1) - ln (rising z n).
Lemma growth_step z n : 0 < z -> 0 <= growth z (S n) - growth z n <= 1 / 1188 * (/ (z + INR n + 1) ^ 9 - / (z + INR (S n) + 1) ^ 9).
Proof.
  intros Hz. unfold growth. cbn [rising]. rewrite S_INR. pose proof (pos_INR n). rewrite ln_mult by (try apply rising_pos; lra).
  pose proof (step_lower (z + INR n + 1) ltac:(lra)) as A. pose proof (step_upper (z + INR n + 1) ltac:(lra)) as B.
  replace (z + (INR n + 1) + 1) with (z + INR n + 1 + 1) by ring. replace (z + (INR n + 1)) with (z + INR n + 1) by ring. lra.
Qed.
Lemma growth_bounds z n : 0 < z -> stirl z <= growth z n <= stirl z + 1 / 1188 * (/ z ^ 9 - / (z + INR n + 1) ^ 9).
Proof.
  intros Hz. induction n as [|n IH].
  - unfold growth. cbn [rising INR]. rewrite Rplus_0_r. pose proof (step_lower z Hz). pose proof (step_upper z Hz). lra.
  - pose proof (growth_step z n Hz). lra.
Qed.
Definition remnant (z : R) (n : nat) : R := ln (INR (fact n)) + z * ln (INR n) - stirl (z + INR n + 1).
Lemma remnant_small z n : 0 < z -> (1 <= n)%nat -> Rabs (remnant z n) <= (8 + 2 * z * (1 + z)) * / INR n.
Proof.
  intros Hz Hn. apply le_INR in Hn. change (INR 1) with 1 in Hn. set (N := INR n) in *. set (x := N + 1).
  assert (I : 0 < / N) by (apply Rinv_0_lt_compat; lra).
  assert (I1 : 0 < / x <= / N) by (unfold x; split; [apply Rinv_0_lt_compat; lra|apply Rinv_le_contravar; lra]).
  assert (I2 : 0 < / (x + z) <= / N) by (unfold x; split; [apply Rinv_0_lt_compat; lra|apply Rinv_le_contravar; lra]).
  pose proof (rest_small n) as Q. apply Rabs_le_between in Q. unfold rest in Q. fold N x in Q.
  pose proof (tail_bound x ltac:(unfold x; lra)) as T1. pose proof (tail_bound (x + z) ltac:(unfold x; lra)) as T2.
  assert (S1 : stirl x = (x - 1 / 2) * ln x - x + ln (2 * PI) / 2 + tail x) by (unfold stirl, tail; ring).
  assert (S2 : stirl (x + z) = (x + z - 1 / 2) * ln (x + z) - (x + z) + ln (2 * PI) / 2 + tail (x + z)) by (unfold stirl, tail; ring).
  assert (A : 0 <= ln (x + z) - ln N <= (1 + z) * / N).
  { rewrite <- ln_div by (unfold x; lra). replace ((x + z) / N) with (1 + (1 + z) * / N) by (unfold x; field; lra). assert (0 < (1 + z) * / N) by nra. split; [rewrite <- ln_1; apply ln_mono'; lra|]. pose proof (ln_upper (1 + (1 + z) * / N) ltac:(lra)). lra. }
  assert (B : z * / (x + z) <= ln (x + z) - ln x <= z * / x).
  { rewrite <- ln_div by (unfold x; lra). assert (P : 0 < (x + z) / x) by (apply Rdiv_lt_0_compat; unfold x; lra). split.
    - pose proof (ln_lower _ P) as L. replace (1 - / ((x + z) / x)) with (z * / (x + z)) in L by (field; unfold x; split; lra). exact L.
    - pose proof (ln_upper _ P) as L. replace ((x + z) / x - 1) with (z * / x) in L by (field; unfold x; lra). exact L. }
  set (dA := ln (x + z) - ln N) in *. set (dB := ln (x + z) - ln x) in *.
  assert (E : remnant z n = (ln (INR (fact n)) - stirl x) + tail x - tail (x + z) - z * dA + (z - (x - 1 / 2) * dB)).
  { unfold remnant. fold N. replace (z + N + 1) with (x + z) by (unfold x; ring). rewrite S1, S2. unfold dA, dB. ring. }
  assert (C : 0 <= z - (x - 1 / 2) * dB <= z * (1 + z) * / N).
  { split.
    - assert ((x - 1 / 2) * dB <= (x - 1 / 2) * (z * / x)) by (apply Rmult_le_compat_l; [unfold x; lra|lra]). replace ((x - 1 / 2) * (z * / x)) with (z - z * / x / 2) in H by (field; unfold x; lra). nra.
    - assert ((x - 1 / 2) * (z * / (x + z)) <= (x - 1 / 2) * dB) by (apply Rmult_le_compat_l; [unfold x; lra|lra]). replace ((x - 1 / 2) * (z * / (x + z))) with (z - z * (z + 1 / 2) * / (x + z)) in H by (field; unfold x; lra).
      assert (z * (z + 1 / 2) * / (x + z) <= z * (1 + z) * / N); [|lra]. apply Rmult_le_compat; try nra. }
  assert (D : 0 <= z * dA <= z * (1 + z) * / N) by (split; nra).
  rewrite E. unfold Rdiv in Q at 1 2. apply Rabs_le. split; nra.
Qed.
Lemma remnant_lim z : 0 < z -> is_lim_seq (remnant z) 0.
Proof.
  intros Hz. set (K := 8 + 2 * z * (1 + z)).
  assert (L : is_lim_seq (fun n => K * / INR n) 0).
  { evar_last; [apply (is_lim_seq_scal_l (fun n => / INR n) K 0)|cbn; f_equal; ring]. evar_last; [apply is_lim_seq_inv; [apply is_lim_seq_INR|discriminate]|reflexivity]. }
  apply (is_lim_seq_le_le_loc (fun n => - (K * / INR n)) _ (fun n => K * / INR n)).
  - exists 1%nat. intros n Hn. pose proof (remnant_small z n Hz Hn) as Q. apply Rabs_le_between in Q. exact Q.
  - replace (Finite 0) with (Rbar_opp 0) by (cbn; f_equal; ring). apply (is_lim_seq_opp (fun n => K * / INR n) 0). exact L.
  - exact L.
Qed.
Lemma gauss_ln z n : 0 < z -> (1 <= n)%nat -> INR (fact n) * Rpower (INR n) z / rising z n = exp (growth z n + remnant z n).
Proof.
  intros Hz Hn. unfold growth, remnant. replace (_ + _) with (ln (INR (fact n)) + z * ln (INR n) + - ln (rising z n)) by ring.
  rewrite exp_plus, exp_plus, exp_ln, exp_Ropp, exp_ln by (try apply INR_fact_lt_0; now apply rising_pos). reflexivity.
Qed.
(** Gauss's limit exists and lies between Stirling's series and the series with one more term. *)
Theorem gamma_exists z : 0 < z -> exists p, is_Gamma z (exp p) /\ stirl z <= p <= stirl z + 1 / 1188 / z ^ 9.
Proof.
  intros Hz. assert (Q : forall n, growth z n <= stirl z + 1 / 1188 / z ^ 9).
  { intros n. pose proof (growth_bounds z n Hz) as B. assert (0 < / (z + INR n + 1) ^ 9) by (apply Rinv_0_lt_compat, pow_lt; pose proof (pos_INR n); lra). unfold Rdiv in *. lra. }
  destruct (ex_finite_lim_seq_incr (growth z) (stirl z + 1 / 1188 / z ^ 9)) as (p & Hp); [intros n; pose proof (growth_step z n Hz); lra|exact Q|].
  exists p. split.
  - unfold is_Gamma. apply (is_lim_seq_ext_loc (fun n => exp (growth z n + remnant z n))).
    + exists 1%nat. intros n Hn. symmetry. now apply gauss_ln.
    + apply (is_lim_seq_continuous exp); [apply derivable_continuous_pt, derivable_pt_exp|]. rewrite <- (Rplus_0_r p). apply (is_lim_seq_plus' (growth z) (remnant z)); auto. now apply remnant_lim.
  - split.
    + apply (is_lim_seq_le (fun _ => stirl z) (growth z) (stirl z) p); [intros n; apply growth_bounds; auto|apply is_lim_seq_const|exact Hp].
    + apply (is_lim_seq_le (growth z) (fun _ => stirl z + 1 / 1188 / z ^ 9) p (stirl z + 1 / 1188 / z ^ 9)); [exact Q|exact Hp|apply is_lim_seq_const].
Qed.
Lemma gamma_unique z g h : is_Gamma z g -> is_Gamma z h -> g = h.
Proof. unfold is_Gamma. intros A B. apply is_lim_seq_unique in A, B. rewrite A in B. now injection B. Qed.
Lemma gamma_bounds z g : 0 < z -> is_Gamma z g -> 0 < g /\ 0 <= ln g - stirl z <= 1 / 1188 / z ^ 9.
Proof. intros Hz G. destruct (gamma_exists z Hz) as (p & Hp & B). rewrite (gamma_unique _ _ _ G Hp). split; [apply exp_pos|]. rewrite ln_exp. lra. Qed.
(** the functional equation *)
Lemma gamma_step z g : 0 < z -> is_Gamma z g -> is_Gamma (z + 1) (z * g).
Proof.
  intros Hz G. unfold is_Gamma in *.
  apply (is_lim_seq_ext_loc (fun n => (z * (INR (fact n) * Rpower (INR n) z / rising z n)) * (INR n / (z + INR n + 1)))).
  - exists 1%nat. intros n Hn. apply le_INR in Hn. change (INR 1) with 1 in Hn. rewrite Rpower_plus, Rpower_1 by lra.
    pose proof (rising_head z n) as E. cbn [rising] in E. pose proof (rising_pos z n Hz). pose proof (rising_pos (z + 1) n ltac:(lra)). rewrite S_INR in E.
    assert (E' : rising (z + 1) n = rising z n * (z + INR n + 1) / z) by (rewrite (Rmult_comm z) in E; replace (z + (INR n + 1)) with (z + INR n + 1) in E by ring; rewrite E; field; lra). rewrite E'. field. repeat split; lra.
  - rewrite <- (Rmult_1_r (z * g)). apply (is_lim_seq_mult' _ _ (z * g) 1).
    + apply (is_lim_seq_scal_l _ z (Finite g)). exact G.
    + apply (is_lim_seq_ext_loc (fun n => / (1 + (z + 1) * / INR n))).
      * exists 1%nat. intros n Hn. apply le_INR in Hn. change (INR 1) with 1 in Hn. field. split; lra.
      * assert (EL : Finite 1 = Rbar_inv (Finite (1 + (z + 1) * 0))) by (change (Finite 1 = Finite (/ (1 + (z + 1) * 0))); f_equal; field; lra). rewrite EL. apply is_lim_seq_inv; [|intros E; injection E; lra].
        apply (is_lim_seq_plus' (fun _ => 1) _ 1 ((z + 1) * 0)); [apply is_lim_seq_const|]. apply (is_lim_seq_scal_l _ (z + 1) 0). evar_last; [apply is_lim_seq_inv; [apply is_lim_seq_INR|discriminate]|reflexivity].
Qed.
Lemma gamma_1 : is_Gamma 1 1.
Proof.
  unfold is_Gamma. apply (is_lim_seq_ext_loc (fun n => / (1 + / INR n))).
  - exists 1%nat. intros n Hn. apply le_INR in Hn. change (INR 1) with 1 in Hn. rewrite Rpower_1 by lra.
    assert (E : forall m, rising 1 m = INR (fact (S m))). { induction m as [|m IH]; [cbn; ring|]. cbn [rising]. rewrite IH, (fact_simpl (S m)), mult_INR, (S_INR (S m)). ring. }
    rewrite E, fact_simpl, mult_INR, S_INR. pose proof (INR_fact_lt_0 n). field. repeat split; lra.
  - assert (EL : Finite 1 = Rbar_inv (Finite (1 + 0))) by (change (Finite 1 = Finite (/ (1 + 0))); f_equal; field; lra). rewrite EL. apply is_lim_seq_inv; [|intros E; injection E; lra].
    apply (is_lim_seq_plus' (fun _ => 1) _ 1 0); [apply is_lim_seq_const|]. evar_last; [apply is_lim_seq_inv; [apply is_lim_seq_INR|discriminate]|reflexivity].
Qed.
Lemma gamma_fact n : is_Gamma (INR n + 1) (INR (fact n)).
Proof.
  induction n as [|n IH]; [rewrite Rplus_0_l; exact gamma_1|]. rewrite fact_simpl, mult_INR, S_INR. apply gamma_step; auto. pose proof (pos_INR n). lra.
Qed.
(** Gamma(1/2) is the square root of pi. *)
Lemma rising_half n : rising (1 / 2) n * (4 ^ n * INR (fact n)) = INR (fact (2 * n)) * (1 / 2 + INR n).
Proof.
  induction n as [|n IH]; [cbn; ring|]. cbn [rising]. replace (2 * S n)%nat with (S (S (2 * n))) by lia. rewrite (fact_simpl (S (2 * n))), (fact_simpl (2 * n)), (fact_simpl n), !mult_INR, !S_INR, mult_INR. change (INR 2) with 2.
  replace (4 ^ S n) with (4 * 4 ^ n) by reflexivity. transitivity (rising (1 / 2) n * (4 ^ n * INR (fact n)) * (4 * (INR n + 1) * (1 / 2 + (INR n + 1)))); [ring|]. rewrite IH. field.
Qed.
Lemma gamma_half : is_Gamma (1 / 2) (sqrt PI).
Proof.
  pose proof PI_RGT_0 as Pp. unfold is_Gamma.
  set (w := fun n => - (ln (INR (fact (2 * n))) - 2 * ln (INR (fact n)) - 2 * INR n * ln 2 + (ln PI + ln (INR n)) / 2) - ln (1 + / (2 * INR n))).
  apply (is_lim_seq_ext_loc (fun n => exp (ln PI / 2 + w n))).
  - exists 1%nat. intros n Hn. apply le_INR in Hn. change (INR 1) with 1 in Hn.
    assert (P : 0 < 1 + / (2 * INR n)) by (assert (0 < / (2 * INR n)) by (apply Rinv_0_lt_compat; lra); lra).
    assert (E : INR (fact n) * Rpower (INR n) (1 / 2) / rising (1 / 2) n = exp (2 * ln (INR (fact n)) + INR n * ln 4 + 1 / 2 * ln (INR n) - ln (INR (fact (2 * n))) - ln (1 / 2 + INR n))).
    { pose proof (rising_half n) as R1. pose proof (rising_pos (1 / 2) n ltac:(lra)) as Rp. pose proof (INR_fact_lt_0 n) as F1. pose proof (INR_fact_lt_0 (2 * n)) as F2.
      unfold Rminus. rewrite !exp_plus, !exp_Ropp, !exp_ln by lra. replace (2 * ln (INR (fact n))) with (ln (INR (fact n)) + ln (INR (fact n))) by ring. rewrite exp_plus, exp_ln by lra.
      replace (exp (INR n * ln 4)) with (4 ^ n) by (rewrite <- (exp_ln (4 ^ n)) by (apply pow_lt; lra); f_equal; rewrite ln_pow by lra; ring). fold (Rpower (INR n) (1 / 2)).
      assert (P4 : 0 < 4 ^ n) by (apply pow_lt; lra). set (p := Rpower (INR n) (1 / 2)).
      apply Rmult_eq_reg_r with (rising (1 / 2) n); [|lra]. unfold Rdiv. rewrite Rmult_assoc, Rinv_l, Rmult_1_r by lra. change (1 * / 2) with (1 / 2).
      transitivity (INR (fact n) * p * (rising (1 / 2) n * (4 ^ n * INR (fact n))) / (INR (fact (2 * n)) * (1 / 2 + INR n))); [rewrite R1; field; split; lra|field; split; lra]. }
    rewrite E. f_equal. unfold w. replace 4 with (2 * 2) by ring. rewrite (ln_mult 2 2) by lra. replace (1 / 2 + INR n) with (INR n * (1 + / (2 * INR n))) by (field; lra). rewrite ln_mult by lra. lra.
  - assert (E : sqrt PI = exp (ln PI / 2 + 0)). { rewrite Rplus_0_r. rewrite <- Rpower_sqrt by lra. unfold Rpower. f_equal. lra. }
    rewrite E. apply (is_lim_seq_continuous exp); [apply derivable_continuous_pt, derivable_pt_exp|]. apply (is_lim_seq_plus' (fun _ => ln PI / 2) w (ln PI / 2) 0); [apply is_lim_seq_const|].
    assert (L : is_lim_seq (fun n => / INR n) 0) by (evar_last; [apply is_lim_seq_inv; [apply is_lim_seq_INR|discriminate]|reflexivity]).
    apply (is_lim_seq_le_le_loc (fun n => - / INR n) _ (fun n => / INR n)); [|replace (Finite 0) with (Rbar_opp 0) by (cbn; f_equal; ring); apply (is_lim_seq_opp (fun n => / INR n) 0); exact L|exact L].
    exists 1%nat. intros n Hn. pose proof (central n Hn) as C. cbv zeta in C. apply le_INR in Hn. change (INR 1) with 1 in Hn. unfold w.
    assert (0 < / INR n) by (apply Rinv_0_lt_compat; lra). assert (H2 : / (2 * INR n) = / INR n / 2) by (field; lra). rewrite H2.
    pose proof (ln_upper (1 + / INR n / 2) ltac:(lra)). assert (0 <= ln (1 + / INR n / 2)) by (rewrite <- ln_1; apply ln_mono'; lra). lra.
Qed.
