(** LogGamma on the real line, and where it fails (C59). *)
From Coq Require Import ZArith Reals List Lra Lia Psatz Bool.
From Coquelicot Require Import Coquelicot.
From Flocq Require Import Core.Raux.
From Verif Require Import Base Scalar RLib MiniballModel ProbModel Stirling GammaSpec GammaProofs ProbProofs.
Import ListNotations.
Open Scope R_scope.

Section Prob.
Context (eps : Epsilon).
Variable u : R.
#[local] Hint Extern 0 (Num R) => exact (Rnum eps) : typeclass_instances.
#[local] Hint Extern 0 (Trans R) => exact (Rtrans u) : typeclass_instances.

Lemma inv_pow_small z k : 10 <= z -> 0 < / z ^ k <= 1 / 10 ^ k.
Proof.
  intros Hz. split; [apply Rinv_0_lt_compat, pow_lt; lra|]. replace (1 / 10 ^ k) with (/ 10 ^ k) by (unfold Rdiv; ring). apply Rinv_le_contravar; [apply pow_lt; lra|apply pow_incr; lra].
Qed.
Lemma start_near z L a : 10 <= z -> 0 <= L - (a + 1 / 12 / z - 1 / 360 / z ^ 3 + 1 / 1260 / z ^ 5 - 1 / 1680 / z ^ 7) <= 1 / 1188 / z ^ 9 -> L - 1 / 120 <= a <= L.
Proof.
  intros Hz B. assert (Z1 : 0 < / z <= 1 / 10) by (split; [apply Rinv_0_lt_compat; lra|replace (1 / 10) with (/ 10) by lra; apply Rinv_le_contravar; lra]).
  pose proof (inv_pow_small z 3 Hz). pose proof (inv_pow_small z 5 Hz). pose proof (inv_pow_small z 7 Hz). pose proof (inv_pow_small z 9 Hz).
  assert (Q : forall k, / z ^ (k + 2) <= / z ^ k / 100).
  { intros k. rewrite (pow_add z k 2). replace (/ z ^ k / 100) with (/ (z ^ k * 100)) by (field; apply pow_nonzero; lra). apply Rinv_le_contravar; [assert (0 < z ^ k) by (apply pow_lt; lra); lra|]. apply Rmult_le_compat_l; [left; apply pow_lt; lra|]. nra. }
  pose proof (Q 1%nat) as Q1. pose proof (Q 3%nat) as Q2. pose proof (Q 5%nat) as Q3. pose proof (Q 7%nat) as Q4. change (1 + 2)%nat with 3%nat in Q1. change (3 + 2)%nat with 5%nat in Q2. change (5 + 2)%nat with 7%nat in Q3. change (7 + 2)%nat with 9%nat in Q4. rewrite pow_1 in Q1.
  unfold Rdiv in B |- *. set (i3 := / z ^ 3) in *; set (i5 := / z ^ 5) in *; set (i7 := / z ^ 7) in *; set (i9 := / z ^ 9) in *; set (i1 := / z) in *. clearbody i1 i3 i5 i7 i9. split; lra.
Qed.
Lemma stirling_near z ls L : 10 <= z -> 0 < u ->
  (let a := (z - 1 / 2) * ln z - z + ln (2 * PI) / 2 - ls in 0 <= L - (a + 1 / 12 / z - 1 / 360 / z ^ 3 + 1 / 1260 / z ^ 5 - 1 / 1680 / z ^ 7) <= 1 / 1188 / z ^ 9) ->
  (exists v, stirling z ls = Ret v /\ Rabs (v - L) <= u * (Rabs L + 1 / 120) + 1 / 30000 / z ^ 7) \/
  (stirling z ls = AssertFail /\ (1 / 10 ^ 17 <= u -> Rabs L < 1 / 100)).
Proof.
  intros Hz Pu B. cbn zeta in B. rewrite <- (start_split eps u) in B. set (a := stirling_start z ls) in B. pose proof (start_near z L a Hz B) as A.
  assert (Az : z <> 0) by lra.
  destruct (stirling_run eps u z ls Az) as [(k & Hk & _ & Hs & E)|(Hb & E)]; fold a in E.
  - left. fold a in Hs. exists (a + partial eps z k). split; [exact E|]. pose proof (partial_close eps z L a k Hz Hk B) as C.
    assert (SA : Rabs a * u <= u * (Rabs L + 1 / 120)). { rewrite Rmult_comm. apply Rmult_le_compat_l; [lra|]. unfold Rabs; destruct (Rcase_abs a), (Rcase_abs L); lra. }
    assert (P7 : 0 <= 1 / 30000 / z ^ 7) by (unfold Rdiv at 1; left; apply Rmult_lt_0_compat; [lra|apply inv_pow_small; auto]).
    destruct (Nat.ltb k 3); [lra|]. assert (0 <= u * (Rabs L + 1 / 120)) by (apply Rmult_le_pos; [lra|pose proof (Rabs_pos L); lra]). lra.
  - right. split; [exact E|]. intros Hu. destruct (Rlt_le_dec (Rabs L) (1 / 100)) as [|Q]; auto. exfalso. specialize (Hb 10%nat (le_n _)). fold a in Hb.
    assert (Ha : 1 / 600 <= Rabs a) by (revert Q; unfold Rabs; destruct (Rcase_abs a), (Rcase_abs L); lra).
    destruct (terms eps z Hz) as (_ & _ & _ & _ & _ & _ & _ & _ & _ & _ & T10). rewrite (Rabs_pos_eq (term eps z 10)) in Hb by lra.
    revert Hb. unfold term. change (2 * 10 + 1)%nat with 21%nat. unfold cf, coeffs, frac. cbn [nth ndiv nofZ Rnum].
    pose proof (inv_pow_small z 21 Hz) as P. unfold Rdiv at 1. set (i := / z ^ 21) in *. clearbody i. clear -P Hu Ha.
    assert (U : 1 / 600 * (1 / 10 ^ 17) <= Rabs a * u) by (apply Rmult_le_compat; lra).
    assert (V : 854513 / 63756 * i <= 14 * (1 / 10 ^ 21)) by (apply Rmult_le_compat; lra).
    assert (W : 14 * (1 / 10 ^ 21) < 1 / 600 * (1 / 10 ^ 17)) by lra. lra.
Qed.

(** the loop that moves the argument to the cutoff *)
Lemma shift_gamma : forall fuel s z, 0 < z -> 10 - z <= INR fuel ->
  exists t y, shift_loop (S fuel) s z = Some (s * t, y) /\ 10 <= y /\ Rmax z 10 <= y /\ 0 < t /\ (forall g, is_Gamma z g -> is_Gamma y (t * g)).
Proof.
  induction fuel as [|fuel IH]; intros s z Hz Hf.
  - cbn [INR] in Hf. exists 1, z. rewrite (shift_far eps) by lra. rewrite Rmult_1_r. repeat split; try lra; [rewrite Rmax_left; lra|intros g G; rewrite Rmult_1_l; auto].
  - rewrite S_INR in Hf. destruct (Rlt_le_dec z 10) as [L|L].
    + rewrite (shift_near eps) by auto. destruct (IH (s * z) (z + 1) ltac:(lra) ltac:(lra)) as (t & y & E & Hy & Hy' & Ht & G). exists (z * t), y. split; [rewrite E; f_equal; f_equal; ring|]. split; auto. split; [rewrite Rmax_right by lra; auto|]. split; [nra|].
      intros g Hg. replace (z * t * g) with (t * (z * g)) by ring. apply G. now apply gamma_step.
    + exists 1, z. rewrite (shift_far eps) by lra. rewrite Rmult_1_r. repeat split; try lra; [rewrite Rmax_left; lra|intros g G; rewrite Rmult_1_l; auto].
Qed.
(** LogGamma is the logarithm of the Gamma function up to the stated error, or fails its assertion. *)
Lemma log_gamma_real k z g : 0 < u -> 1 / 2 <= z -> is_Gamma z g ->
  (exists v, log_gamma_ (S k) z = Some (Ret v) /\ Rabs (v - ln g) <= u * (Rabs (ln g) + 1 / 120) + 1 / 30000 / Rmax z 10 ^ 7) \/
  (log_gamma_ (S k) z = Some AssertFail /\ (1 / 10 ^ 17 <= u -> Rabs (ln g) < 1 / 100)).
Proof.
  intros Pu Hz G. assert (Pz : 0 < z) by lra. destruct (gamma_bounds z g Pz G) as (Pg & _).
  assert (Pos : forall L, 0 <= u * (Rabs L + 1 / 120) + 1 / 30000 / Rmax z 10 ^ 7).
  { intros L. apply Rplus_le_le_0_compat; [apply Rmult_le_pos; [lra|pose proof (Rabs_pos L); lra]|]. unfold Rdiv. apply Rmult_le_pos; [lra|]. left. apply Rinv_0_lt_compat, pow_lt. pose proof (Rmax_r z 10). lra. }
  cbn [log_gamma_]. change (nltb z nhalf) with (Rlt_bool z (1 / 2)). change (neqb z nhalf) with (Req_bool z (1 / 2)). change (neqb z n1) with (Req_bool z 1). change (neqb z n2) with (Req_bool z 2). change (nltb z (nofZ gamma_cutoff)) with (Rlt_bool z 10).
  rewrite Rlt_bool_false by lra. destruct (Req_bool_spec z (1 / 2)) as [E|N].
  { left. exists (ln PI / 2). split; [reflexivity|]. subst z. rewrite (gamma_unique _ _ _ G gamma_half). rewrite <- Rpower_sqrt by apply PI_RGT_0. unfold Rpower at 1. rewrite ln_exp. replace (ln PI / 2 - / 2 * ln PI) with 0 by lra. rewrite Rabs_R0. apply Pos. }
  destruct (Req_bool_spec z 1) as [E|N1]; cbn [orb].
  { left. exists 0. split; [reflexivity|]. subst z. rewrite (gamma_unique _ _ _ G gamma_1). rewrite ln_1, Rminus_0_r. rewrite Rabs_R0 at 1. apply Pos. }
  destruct (Req_bool_spec z 2) as [E|N2].
  { left. exists 0. split; [reflexivity|]. subst z. assert (G2 : is_Gamma 2 1) by (replace 2 with (1 + 1) by ring; rewrite <- (Rmult_1_l 1) at 3; apply gamma_step; [lra|exact gamma_1]). rewrite (gamma_unique _ _ _ G G2). rewrite ln_1, Rminus_0_r. rewrite Rabs_R0 at 1. apply Pos. }
  destruct (Rlt_bool_spec z 10) as [L|L].
  - destruct (shift_gamma 10 1 z Pz) as (t & y & E & Hy & Hy' & Ht & T); [rewrite INR_IZR_INZ; cbn [Z.of_nat Pos.of_succ_nat Pos.succ]; lra|]. change n1 with 1. rewrite E, Rmult_1_l.
    pose proof (T g G) as Gy. destruct (gamma_bounds y (t * g) ltac:(lra) Gy) as (_ & B). rewrite ln_mult in B by lra.
    destruct (stirling_near y (ln (Rabs t)) (ln g)) as [(v & Ev & Bv)|(Ev & Bv)]; auto.
    + rewrite Rabs_pos_eq by lra. unfold stirl in B. cbv zeta. lra.
    + left. exists v. split; [now rewrite <- Ev|]. eapply Rle_trans; [exact Bv|]. apply Rplus_le_compat_l. rewrite Rmax_right by lra. unfold Rdiv. apply Rmult_le_compat_l; [lra|]. apply Rinv_le_contravar; [apply pow_lt; lra|apply pow_incr; lra].
    + right. split; [now rewrite <- Ev|]. auto.
  - rewrite Rmax_left by lra. destruct (gamma_bounds z g Pz G) as (_ & B). destruct (stirling_near z 0 (ln g)) as [(v & Ev & Bv)|(Ev & Bv)]; auto.
    + unfold stirl in B. cbv zeta. lra.
    + left. exists v. split; [now rewrite <- Ev|exact Bv].
    + right. split; [now rewrite <- Ev|auto].
Qed.

(** * The values for which the assertion fails *)
Definition start8 (z : R) : R := (z + 8 - 1 / 2) * ln (z + 8) - (z + 8) + ln (2 * PI) / 2 - (ln z + ln (z + 1) + ln (z + 2) + ln (z + 3) + ln (z + 4) + ln (z + 5) + ln (z + 6) + ln (z + 7)).
Lemma start8_derive z : 0 < z -> is_derive start8 z (ln (z + 8) + (z + 8 - 1 / 2) / (z + 8) - 1 - (/ z + / (z + 1) + / (z + 2) + / (z + 3) + / (z + 4) + / (z + 5) + / (z + 6) + / (z + 7))).
Proof. intros Hz. unfold start8. pose proof PI_RGT_0. auto_derive; [repeat split; lra|]. field. repeat split; lra. Qed.
Lemma ln_8_range z : 2 <= z <= 3 -> 0 <= ln (z + 8) <= 3.
Proof.
  intros Hz. split; [rewrite <- ln_1; apply ln_mono; lra|]. rewrite <- (ln_exp 3). apply ln_mono; [lra|]. replace 3 with (1 + 1 + 1) by ring. rewrite !exp_plus. pose proof exp_ineq1_le 1 as E. pose proof (exp_ineq1_le (1 / 4)) as E4.
  assert (X : 1 + 1 / 4 <= exp (1 / 4)) by lra. assert (E1 : exp 1 = exp (1 / 4) * exp (1 / 4) * (exp (1 / 4) * exp (1 / 4))) by (rewrite <- !exp_plus; f_equal; lra).
  assert (Y : 25 / 16 <= exp (1 / 4) * exp (1 / 4)) by nra. assert (Z : 625 / 256 <= exp 1) by (rewrite E1; nra). assert (5 < exp 1 * exp 1) by nra. nra.
Qed.
Lemma start8_lip x y : 2 <= x <= 3 -> 2 <= y <= 3 -> Rabs (start8 y - start8 x) <= 4 * Rabs (y - x).
Proof.
  intros Hx Hy. set (df := fun z => ln (z + 8) + (z + 8 - 1 / 2) / (z + 8) - 1 - (/ z + / (z + 1) + / (z + 2) + / (z + 3) + / (z + 4) + / (z + 5) + / (z + 6) + / (z + 7))).
  assert (M : 2 <= Rmin x y /\ Rmax x y <= 3) by (unfold Rmin, Rmax; destruct (Rle_dec x y); lra).
  destruct (MVT_gen start8 x y df) as (c & Hc & E).
  - intros z Hz. apply start8_derive. lra.
  - intros z Hz. apply continuity_pt_filterlim. apply (ex_derive_continuous start8). exists (df z). apply start8_derive. lra.
  - rewrite E, Rabs_mult. apply Rmult_le_compat_r; [apply Rabs_pos|]. unfold df. pose proof (ln_8_range c ltac:(lra)) as Lc.
    assert (I : forall k, 0 <= k -> 0 < / (c + k) <= / (2 + k)) by (intros k Hk; split; [apply Rinv_0_lt_compat; lra|apply Rinv_le_contravar; lra]).
    pose proof (I 0 ltac:(lra)) as I0. rewrite !Rplus_0_r in I0. pose proof (I 1 ltac:(lra)). pose proof (I 2 ltac:(lra)). pose proof (I 3 ltac:(lra)). pose proof (I 4 ltac:(lra)). pose proof (I 5 ltac:(lra)). pose proof (I 6 ltac:(lra)). pose proof (I 7 ltac:(lra)). pose proof (I 8 ltac:(lra)).
    replace ((c + 8 - 1 / 2) / (c + 8)) with (1 - / (c + 8) / 2) by (field; lra). apply Rabs_le. lra.
Qed.
Lemma log_gamma_23 k z : 2 < z < 3 -> log_gamma_ (S k) z = Some (stirling (z + 8) (ln (z * (z + 1) * (z + 2) * (z + 3) * (z + 4) * (z + 5) * (z + 6) * (z + 7)))).
Proof.
  intros Hz. rewrite (log_gamma_near eps u) by lra. repeat (rewrite (shift_near eps) by lra). rewrite (shift_far eps) by lra.
  replace (z + 1 + 1) with (z + 2) by ring. replace (z + 2 + 1) with (z + 3) by ring. replace (z + 3 + 1) with (z + 4) by ring. replace (z + 4 + 1) with (z + 5) by ring. replace (z + 5 + 1) with (z + 6) by ring. replace (z + 6 + 1) with (z + 7) by ring. replace (z + 7 + 1) with (z + 8) by ring.
  rewrite Rmult_1_l, Rabs_pos_eq; auto. repeat apply Rmult_le_pos; lra.
Qed.
Lemma start8_start z : 0 < z -> stirling_start (z + 8) (ln (z * (z + 1) * (z + 2) * (z + 3) * (z + 4) * (z + 5) * (z + 6) * (z + 7))) = start8 z.
Proof.
  intros Hz. rewrite (start_split eps u). unfold start8. 
  rewrite (ln_mult _ (z + 7)), (ln_mult _ (z + 6)), (ln_mult _ (z + 5)), (ln_mult _ (z + 4)), (ln_mult _ (z + 3)), (ln_mult _ (z + 2)), (ln_mult _ (z + 1)) by (repeat apply Rmult_lt_0_compat; lra). ring.
Qed.
Lemma start8_ends : start8 2 <= - 1 / 130 /\ 1 / 4 <= start8 3.
Proof.
  assert (F9 : ln (INR (fact 9)) = ln 2 + ln (2 + 1) + ln (2 + 2) + ln (2 + 3) + ln (2 + 4) + ln (2 + 5) + ln (2 + 6) + ln (2 + 7)).
  { rewrite <- !ln_mult by lra. f_equal. rewrite INR_IZR_INZ. vm_compute (Z.of_nat (fact 9)). lra. }
  assert (F10 : ln (INR (fact 10)) = ln 2 + (ln 3 + ln (3 + 1) + ln (3 + 2) + ln (3 + 3) + ln (3 + 4) + ln (3 + 5) + ln (3 + 6) + ln (3 + 7))).
  { rewrite <- !ln_mult by lra. f_equal. rewrite INR_IZR_INZ. vm_compute (Z.of_nat (fact 10)). lra. }
  assert (B9 : 0 <= ln (INR (fact 9)) - stirl (2 + 8) <= 1 / 1188 / (2 + 8) ^ 9) by (replace (2 + 8) with (INR 9 + 1) by (rewrite INR_IZR_INZ; cbn [Z.of_nat Pos.of_succ_nat Pos.succ]; lra); apply (stirling_bounds 9)).
  assert (B10 : 0 <= ln (INR (fact 10)) - stirl (3 + 8) <= 1 / 1188 / (3 + 8) ^ 9) by (replace (3 + 8) with (INR 10 + 1) by (rewrite INR_IZR_INZ; cbn [Z.of_nat Pos.of_succ_nat Pos.succ]; lra); apply (stirling_bounds 10)).
  rewrite F9 in B9. rewrite F10 in B10. unfold stirl in B9, B10. pose proof ln_lt_2. unfold start8. split.
  - set (l := ln (2 * PI)) in *. clearbody l. clear B10. lra.
  - set (l := ln (2 * PI)) in *. clearbody l. clear B9. lra.
Qed.
Lemma term_big z j : 10 <= z <= 11 -> (j <= 10)%nat -> 18 / 10 ^ 22 <= Rabs (term eps z j).
Proof.
  intros Hz Hj. destruct (terms eps z ltac:(lra)) as (T0 & T1 & T2 & T3 & T4 & T5 & T6 & T7 & T8 & T9 & T10).
  assert (Q : 18 / 10 ^ 22 <= term eps z 10).
  { unfold term. change (2 * 10 + 1)%nat with 21%nat. unfold cf, coeffs, frac. cbn [nth ndiv nofZ Rnum]. unfold Rdiv at 2.
    assert (/ 11 ^ 21 <= / z ^ 21) by (apply Rinv_le_contravar; [apply pow_lt; lra|apply pow_incr; lra]). set (i := / z ^ 21) in *. clearbody i. lra. }
  do 11 (destruct j as [|j]; [match goal with |- _ <= Rabs (term eps z ?k) => generalize dependent (term eps z k); intros; unfold Rabs; destruct (Rcase_abs _); lra end|]). lia.
Qed.
Lemma log_gamma_crash k : 0 < u <= 4 / 10 ^ 16 ->
  exists z0, 2 + 1 / 10 ^ 6 < z0 < 3 - 1 / 10 ^ 6 /\ forall z, Rabs (z - z0) <= 1 / 10 ^ 6 -> log_gamma_ (S k) z = Some AssertFail.
Proof.
  intros Hu. destruct start8_ends as (A & B).
  destruct (Ranalysis5.IVT_interv start8 2 3) as (z0 & H0 & E0); try lra.
  { intros x Hx. apply continuity_pt_filterlim, (ex_derive_continuous start8). eexists. apply start8_derive. lra. }
  pose proof (start8_lip 2 z0 ltac:(lra) H0) as L2. pose proof (start8_lip z0 3 H0 ltac:(lra)) as L3. rewrite E0 in L2, L3.
  rewrite (Rabs_pos_eq (z0 - 2)), (Rabs_pos_eq (0 - start8 2)) in L2 by lra. rewrite (Rabs_pos_eq (3 - z0)), (Rabs_pos_eq (start8 3 - 0)) in L3 by lra.
  exists z0. split; [lra|]. intros z Hz. assert (Hz' : z0 - 1 / 10 ^ 6 <= z <= z0 + 1 / 10 ^ 6) by (apply Rabs_le_between in Hz; lra).
  assert (R : 2 < z < 3) by lra. rewrite log_gamma_23 by auto. f_equal.
  destruct (stirling_run eps u (z + 8) (ln (z * (z + 1) * (z + 2) * (z + 3) * (z + 4) * (z + 5) * (z + 6) * (z + 7)))) as [(k' & Hk & _ & Hs & _)|(_ & E)]; [lra| |exact E].
  exfalso. rewrite (start8_start z) in Hs by lra. pose proof (term_big (z + 8) k' ltac:(lra) Hk) as T. pose proof (start8_lip z0 z H0 ltac:(lra)) as L. rewrite E0, Rminus_0_r in L.
  assert (Q : Rabs (start8 z) * u <= 4 * (1 / 10 ^ 6) * (4 / 10 ^ 16)) by (apply Rmult_le_compat; [apply Rabs_pos|lra|lra|lra]). lra.
Qed.

(** * Factorials *)
Lemma factorial_small n : (0 <= n < 10)%Z -> factorial n = Some (Ret (INR (fact (Z.to_nat n)))) /\ log_factorial n = Some (Ret (ln (INR (fact (Z.to_nat n))))).
Proof.
  intros Hn. assert (C : (n = 0 \/ n = 1 \/ n = 2 \/ n = 3 \/ n = 4 \/ n = 5 \/ n = 6 \/ n = 7 \/ n = 8 \/ n = 9)%Z) by lia.
  destruct C as [->|[->|C]]; [split; [reflexivity|]; change (INR (fact (Z.to_nat 0))) with 1; rewrite ln_1; reflexivity|split; [reflexivity|]; change (INR (fact (Z.to_nat 1))) with 1; rewrite ln_1; reflexivity|].
  assert (P : product_down (Z.to_nat n) (nofZ n) = INR (fact (Z.to_nat n))).
  { rewrite INR_IZR_INZ. destruct C as [->|[->|[->|[->|[->|[->|[->| ->]]]]]]]; vm_compute (Z.of_nat (fact _)); unfold Z.to_nat, Pos.to_nat; cbn [Pos.iter_op Init.Nat.add product_down Nat.ltb Nat.leb nofZ nmul Rnum Z.of_nat Pos.of_succ_nat Pos.succ]; lra. }
  unfold factorial, log_factorial. rewrite P. assert (E : ((n =? 0) || (n =? 1))%Z = false) by (apply orb_false_intro; apply Z.eqb_neq; lia). rewrite E.
  assert (E' : (n <? gamma_cutoff)%Z = true) by (apply Z.ltb_lt; unfold gamma_cutoff; lia). rewrite E'. split; reflexivity.
Qed.
Lemma log_factorial_big n : (10 <= n < 2 ^ 32 - 1)%Z -> log_factorial n = log_gamma (INR (Z.to_nat n) + 1) /\ factorial n = rbind (log_gamma (INR (Z.to_nat n) + 1)) (fun g => Some (Ret (exp g))).
Proof.
  intros Hn. unfold factorial, log_factorial. assert (E : ((n =? 0) || (n =? 1))%Z = false) by (apply orb_false_intro; apply Z.eqb_neq; lia). rewrite E.
  assert (E' : (n <? gamma_cutoff)%Z = false) by (apply Z.ltb_ge; unfold gamma_cutoff; lia). rewrite E'. unfold uwrap. rewrite Z.mod_small by lia.
  assert (W : nofZ (n + 1) = INR (Z.to_nat n) + 1). { change (nofZ (n + 1)) with (IZR (n + 1)). rewrite INR_IZR_INZ, Z2Nat.id, plus_IZR by lia. reflexivity. } rewrite W. split; reflexivity.
Qed.
Lemma log_factorial_close n : 1 / 10 ^ 19 <= u -> (10 <= n < 2 ^ 32 - 1)%Z ->
  exists v, log_factorial n = Some (Ret v) /\ Rabs (v - ln (INR (fact (Z.to_nat n)))) <= u * ln (INR (fact (Z.to_nat n))) + 1 / 30000 / (IZR n + 1) ^ 7.
Proof.
  intros Hu Hn. destruct (log_factorial_big n Hn) as (E & _). rewrite E. destruct (log_gamma_int eps u (Z.to_nat n) 1 Hu ltac:(lia)) as (v & Ev & B & _). exists v. split; [exact Ev|].
  unfold cut in B. assert (Q : INR (Z.to_nat n) = IZR n) by (rewrite INR_IZR_INZ, Z2Nat.id by lia; reflexivity). rewrite Q, Rmax_left in B; [exact B|]. assert (10 <= IZR n) by (apply IZR_le; lia). lra.
Qed.
(** 10! is missed by more than the precision of the library. *)
Lemma log_factorial_10 : 1 / 10 ^ 19 <= u <= 1 / 10 ^ 12 -> exists v, log_factorial 10 = Some (Ret v) /\ v - ln (INR (fact 10)) <= - 7 / 10 ^ 13.
Proof.
  intros Hu. destruct (log_factorial_big 10 ltac:(lia)) as (E & _). rewrite E. unfold log_gamma. change (Z.to_nat 10) with 10%nat. assert (Ez : INR 10 + 1 = 11) by (rewrite INR_IZR_INZ; cbn [Z.of_nat Pos.of_succ_nat Pos.succ]; lra). rewrite Ez.
  rewrite (log_gamma_far eps u) by lra. pose proof (stirling_bounds 10) as B. cbv zeta in B. rewrite Ez in B. 
  destruct (stirling_close eps u 11 0 (ln (INR (fact 10)))) as (v & Ev & Bv); [lra|lra|apply ln_fact; lia|unfold stirl in B; cbv zeta; lra|]. exists v. split; [rewrite Ev; reflexivity|].
  destruct (stirling_run eps u 11 0 ltac:(lra)) as [(k & Hk & Hb & Hs & E2)|(_ & E2)]; rewrite E2 in Ev; [|discriminate]. assert (V : v = stirling_start 11 0 + partial eps 11 k) by congruence. rewrite V. clear V Ev Bv.
  rewrite (start_split eps u) in *. unfold stirl in B. set (a := (11 - 1 / 2) * ln 11 - 11 + ln (2 * PI) / 2) in *. rewrite Rminus_0_r in *.
  assert (Hln : ln (INR (fact 10)) <= 22).
  { replace 22 with (ln (exp 1) * 22) by (rewrite ln_exp; lra). assert (ln (INR (fact 10)) <= 22 * ln 2). { replace (22 * ln 2) with (ln (2 ^ 22)) by (rewrite ln_pow by lra; rewrite INR_IZR_INZ; reflexivity). apply ln_mono; [apply INR_fact_lt_0|]. rewrite INR_IZR_INZ. vm_compute (Z.of_nat (fact 10)). lra. }
    pose proof (exp_ineq1_le 1). pose proof (ln_mono 2 (exp 1) ltac:(lra) ltac:(lra)). lra. }
  pose proof (ln_fact 10 ltac:(lia)) as Hl. pose proof (start_near 11 _ a ltac:(lra) B) as A.
  destruct (terms eps 11 ltac:(lra)) as (T0 & T1 & T2 & T3 & T4 & T5 & T6 & T7 & T8 & T9 & T10).
  assert (K3 : (3 <= k)%nat).
  { destruct (Nat.le_gt_cases 3 k) as [|G]; auto. exfalso. assert (T2' : 4 / 10 ^ 9 <= term eps 11 2) by (unfold term; change (2 * 2 + 1)%nat with 5%nat; unfold cf, coeffs, frac; cbn [nth ndiv nofZ Rnum]; lra).
    assert (SA : Rabs a * u <= 22 * (1 / 10 ^ 12)) by (apply Rmult_le_compat; [apply Rabs_pos|assert (0 < 1 / 10 ^ 19) by (apply Rdiv_lt_0_compat; lra); lra|rewrite Rabs_pos_eq; lra|lra]).
    assert (4 / 10 ^ 9 <= Rabs (term eps 11 k)); [|lra]. destruct k as [|[|[|k]]]; [rewrite Rabs_pos_eq; lra|rewrite Rabs_left; lra|rewrite Rabs_pos_eq; lra|lia]. }
  assert (E0 : term eps 11 0 = 1 / 12 / 11) by (unfold term; change (2 * 0 + 1)%nat with 1%nat; rewrite pow_1; reflexivity).
  assert (E1 : term eps 11 1 = - (1 / 360 / 11 ^ 3)) by (unfold term; change (2 * 1 + 1)%nat with 3%nat; unfold cf, coeffs, frac; cbn [nth ndiv nofZ Rnum]; unfold Rdiv; ring).
  assert (E2' : term eps 11 2 = 1 / 1260 / 11 ^ 5) by reflexivity.
  assert (E3 : term eps 11 3 = - (1 / 1620 / 11 ^ 7)) by (unfold term; change (2 * 3 + 1)%nat with 7%nat; unfold cf, coeffs, frac; cbn [nth ndiv nofZ Rnum]; unfold Rdiv; ring).
  assert (E4 : term eps 11 4 = 1 / 1188 / 11 ^ 9) by (unfold term; change (2 * 4 + 1)%nat with 9%nat; unfold cf, coeffs, frac; cbn [nth ndiv nofZ Rnum]; f_equal; lra).
  assert (PP : partial eps 11 k <= term eps 11 0 + term eps 11 1 + term eps 11 2 + term eps 11 3 + term eps 11 4).
  { set (t0 := term eps 11 0) in *; set (t1 := term eps 11 1) in *; set (t2 := term eps 11 2) in *; set (t3 := term eps 11 3) in *; set (t4 := term eps 11 4) in *; set (t5 := term eps 11 5) in *; set (t6 := term eps 11 6) in *; set (t7 := term eps 11 7) in *; set (t8 := term eps 11 8) in *; set (t9 := term eps 11 9) in *; set (t10 := term eps 11 10) in *. clear -K3 Hk T0 T1 T2 T3 T4 T5 T6 T7 T8 T9 T10.
    do 3 (destruct k as [|k]; [lia|]). do 8 (destruct k as [|k]; [cbn [partial]; fold t0 t1 t2 t3 t4 t5 t6 t7 t8 t9 t10; lra|]). lia. }
  set (L := ln (INR (fact 10))) in *. clearbody L a. clear Hs Hb E2 T0 T1 T2 T3 T4 T5 T6 T7 T8 T9 T10. rewrite E0, E1, E2', E3, E4 in PP. set (q := partial eps 11 k) in *. clearbody q. lra.
Qed.
(** The largest unsigned int wraps to LogGamma(0). *)
Lemma log_factorial_wrap : log_factorial (2 ^ 32 - 1) = log_gamma 0 /\ log_gamma 0 = Some (Ret (ln PI - 0 - ln 0)).
Proof.
  split; [reflexivity|]. unfold log_gamma. cbn [log_gamma_]. change (nltb 0 nhalf) with (Rlt_bool 0 (1 / 2)). rewrite Rlt_bool_true by lra. change (nsub n1 0) with (1 - 0). rewrite Rminus_0_r. change (nltb 1 nhalf) with (Rlt_bool 1 (1 / 2)). change (neqb 1 nhalf) with (Req_bool 1 (1 / 2)). change (neqb 1 n1) with (Req_bool 1 1).
  rewrite Rlt_bool_false, Req_bool_false, Req_bool_true by lra. cbn [orb rbind ret]. unfold ret. change (nsin (nmul npi 0)) with (sin (PI * 0)). rewrite Rmult_0_r, sin_0. change (nabs 0) with (Rabs 0). rewrite Rabs_R0. reflexivity.
Qed.

(** * Reflection and recurrence *)
Lemma log_gamma_reflect z b : z < 1 / 2 -> log_gamma (1 - z) = Some (Ret b) -> log_gamma z = Some (Ret (ln PI - b - ln (Rabs (sin (PI * z))))).
Proof.
  intros Hz Hb. unfold log_gamma.
  assert (E : log_gamma_ 2 z = rbind (log_gamma_ 1 (1 - z)) (fun g => Some (Ret (ln PI - g - ln (Rabs (sin (PI * z))))))).
  { cbn [log_gamma_]. change (nltb z nhalf) with (Rlt_bool z (1 / 2)). rewrite Rlt_bool_true by auto. reflexivity. }
  rewrite E. clear E.
  assert (F : log_gamma_ 1 (1 - z) = log_gamma_ 2 (1 - z)). { cbn [log_gamma_]. change (nltb (1 - z) nhalf) with (Rlt_bool (1 - z) (1 / 2)). rewrite Rlt_bool_false by lra. reflexivity. }
  rewrite F. unfold log_gamma in Hb. rewrite Hb. reflexivity.
Qed.
End Prob.
