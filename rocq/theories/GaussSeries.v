(** The power series for the mass of the normal distribution near the mean (C61). *)
From Coq Require Import ZArith Reals List Lra Lia Psatz.
From Coquelicot Require Import Coquelicot.
From Verif Require Import ProbSpec ProbProofs4 ProbProofs6 ProbProofs7 GaussInt.
Open Scope R_scope.

Fixpoint tc (k : nat) : R := match k with O => 1 | S j => tc j / (2 * INR j + 3) end.
Definition tk (k : nat) (x : R) : R := tc k * x ^ (2 * k + 1).
Lemma tc_pos k : 0 < tc k.
Proof. induction k as [|k IH]; cbn [tc]; [lra|]. apply Rdiv_lt_0_compat; auto. pose proof (pos_INR k). lra. Qed.
Lemma tk_pc k x : tk k x = x * pc (1 / 2) (x * x / 2) k.
Proof.
  unfold tk. induction k as [|k IH]; [cbn; ring|]. cbn [tc pc]. rewrite <- Rmult_assoc, <- IH. replace (2 * S k + 1)%nat with (S (S (2 * k + 1))) by lia. cbn [pow]. pose proof (pos_INR k). field. lra.
Qed.
Lemma tk_derive_0 (x : R) : is_derive (tk 0) x 1.
Proof. unfold tk. cbn [tc Nat.mul Nat.add]. auto_derive; auto. ring. Qed.
Lemma tk_derive k (x : R) : is_derive (tk (S k)) x (x * tk k x).
Proof.
  unfold tk. auto_derive; auto. replace (k + S (k + 0) + 1)%nat with (S (2 * k + 1)) by lia. cbv iota. cbn [pow]. rewrite S_INR, plus_INR, mult_INR. change (INR 2) with 2. change (INR 1) with 1. pose proof (pos_INR k). field. lra.
Qed.
Fixpoint tsum (k : nat) (x : R) : R := match k with O => tk 0 x | S j => tsum j x + tk (S j) x end.
Lemma tsum_ps k x : tsum k x = x * ps (1 / 2) (x * x / 2) k.
Proof. induction k as [|k IH]; [cbn [tsum ps]; rewrite tk_pc; cbn; ring|]. cbn [tsum ps]. rewrite IH, tk_pc. ring. Qed.
Lemma tsum_derive k (x : R) : is_derive (tsum k) x (1 + x * tsum k x - x * tk k x).
Proof.
  induction k as [|k IH]; [evar_last; [apply tk_derive_0|cbn [tsum]; ring]|].
  apply (is_derive_ext (fun x => tsum k x + tk (S k) x)); [reflexivity|]. evar_last; [apply (is_derive_plus (tsum k) (tk (S k))); [exact IH|apply tk_derive]|]. cbn [tsum]. unfold plus; cbn. ring.
Qed.
Definition left_out (k : nat) (x : R) : R := 1 / 2 - ntail x - dens x * tsum k x.
Lemma left_out_derive k (x : R) : is_derive (left_out k) x (dens x * (x * tk k x)).
Proof.
  unfold left_out. auto_derive; [repeat split; eexists; [apply ntail_derive|apply dens_derive|apply tsum_derive]|].
  rewrite (is_derive_unique (fun x : R => ntail x) x _ (ntail_derive x)), (is_derive_unique (fun x : R => dens x) x _ (dens_derive x)), (is_derive_unique (fun x : R => tsum k x) x _ (tsum_derive k x)). ring.
Qed.
Lemma dens_le_1 x : dens x <= 1.
Proof.
  unfold dens. assert (1 <= sqrt (2 * PI)) by (rewrite <- sqrt_1; apply sqrt_le_1; pose proof PI_RGT_0; pose proof PI2_3_2; lra). assert (bell x <= 1) by (unfold bell; rewrite <- exp_0; apply exp_mono; pose proof (pow2_ge_0 x); lra). pose proof (bell_pos x).
  apply Rmult_le_reg_r with (sqrt (2 * PI)); [lra|]. unfold Rdiv. rewrite Rmult_assoc, Rinv_l; lra.
Qed.
Lemma left_out_bounds k x : 0 < x -> 0 <= left_out k x <= x * x * tk k x.
Proof.
  intros Hx. assert (Z : left_out k 0 = 0). { unfold left_out, ntail, half_bell. rewrite RInt_point. change zero with 0. assert (E : tsum k 0 = 0) by (rewrite tsum_ps; ring). rewrite E. unfold Rdiv. ring. }
  destruct (MVT_gen (left_out k) 0 x (fun t => dens t * (t * tk k t))) as (c & Hc & E).
  - intros t _. apply left_out_derive.
  - intros t _. apply continuity_pt_filterlim, (ex_derive_continuous (left_out k)). eexists. apply left_out_derive.
  - rewrite Rmin_left, Rmax_right in Hc by lra. rewrite Z, !Rminus_0_r in E. rewrite E. pose proof (dens_pos c). pose proof (dens_le_1 c). pose proof (tc_pos k).
    assert (T : 0 <= tk k c <= tk k x). { unfold tk. split; [apply Rmult_le_pos; [lra|apply pow_le; lra]|]. apply Rmult_le_compat_l; [lra|]. apply pow_incr. lra. }
    assert (A : 0 <= c * tk k c <= x * tk k x) by (split; [apply Rmult_le_pos; lra|apply Rmult_le_compat; lra]). split; [apply Rmult_le_pos; [apply Rmult_le_pos; lra|lra]|]. assert (dens c * (c * tk k c) <= x * tk k x) by nra. nra.
Qed.
Lemma pc_dec a z k : 0 < a -> 0 < z <= a + 1 -> pc a z (S k) <= pc a z k.
Proof.
  intros Ha Hz. cbn [pc]. pose proof (pc_pos a z Ha Hz k). rewrite <- (Rmult_1_r (pc a z k)) at 2. apply Rmult_le_compat_l; [lra|]. pose proof (pos_INR k). apply Rmult_le_reg_r with (a + INR k + 1); [lra|]. unfold Rdiv. rewrite Rmult_assoc, Rinv_l; lra.
Qed.
Lemma pc_dec_le a z k n : 0 < a -> 0 < z <= a + 1 -> (k <= n)%nat -> pc a z n <= pc a z k.
Proof. intros Ha Hz L. induction L as [|n L IH]; [lra|]. eapply Rle_trans; [now apply pc_dec|exact IH]. Qed.
Lemma mass_series K x : 0 < x -> x * x / 2 <= 3 / 2 -> (1 <= K)%nat -> let z := x * x / 2 in
  x * dens x * ps (1 / 2) z K <= 1 / 2 - ntail x <= x * dens x * (ps (1 / 2) z K + pc (1 / 2) z K * ((1 / 2 + 1) / INR K)).
Proof.
  intros Hx Hz HK z. assert (Hz' : 0 < z <= 1 / 2 + 1) by (unfold z in *; split; nra). pose proof (dens_pos x) as D. split.
  - pose proof (left_out_bounds K x Hx) as (L & _). unfold left_out in L. rewrite tsum_ps in L. fold z in L. lra.
  - apply Rnot_lt_le. intros C. set (top := x * dens x * (ps (1 / 2) z K + pc (1 / 2) z K * ((1 / 2 + 1) / INR K))) in *. set (d := 1 / 2 - ntail x - top). assert (Pd : 0 < d) by (unfold d; lra).
    assert (X3 : 0 < x * x * x) by (assert (0 < x * x) by nra; nra). destruct (pc_small (1 / 2) z ltac:(lra) Hz' (d / (2 * (x * x * x)))) as (k & Hk). { apply Rdiv_lt_0_compat; lra. }
    set (n := Nat.max k K). assert (P := pc_dec_le (1 / 2) z k n ltac:(lra) Hz' (Nat.le_max_l _ _)). pose proof (left_out_bounds n x Hx) as (_ & L). unfold left_out in L. rewrite tsum_ps, tk_pc in L. fold z in L.
    pose proof (ps_rest (1 / 2) z ltac:(lra) Hz' K n ltac:(unfold n; lia)) as R1. pose proof (pc_pos (1 / 2) z ltac:(lra) Hz' n) as PN. assert (NK : 0 < (1 / 2 + 1) / INR K) by (apply Rdiv_lt_0_compat; [lra|apply lt_0_INR; lia]).
    assert (T : x * dens x * ps (1 / 2) z n <= top). { unfold top. apply Rmult_le_compat_l; [nra|]. assert (0 < pc (1 / 2) z n * ((1 / 2 + 1) / INR K)) by (apply Rmult_lt_0_compat; auto). lra. }
    assert (Q : x * x * (x * pc (1 / 2) z n) <= d / 2). { replace (x * x * (x * pc (1 / 2) z n)) with (x * x * x * pc (1 / 2) z n) by ring. apply Rle_trans with (x * x * x * (d / (2 * (x * x * x)))); [apply Rmult_le_compat_l; lra|]. right. field. lra. }
    unfold d in *. lra.
Qed.
