(** PoissonConditional: the tail of the distribution and the result (C61). *)
From Coq Require Import ZArith Reals List Lra Lia Psatz Bool.
From Coquelicot Require Import Coquelicot.
From Flocq Require Import Core.Raux Core.Zaux.
From Verif Require Import Base Scalar RLib MiniballModel ProbModel Stirling GammaSpec GammaProofs ProbSpec ProbProofs ProbProofs2 ProbProofs3 ProbProofs4 ProbProofs5.
Import ListNotations.
Open Scope R_scope.

(** * The tail *)
Lemma pmf_pos m n : 0 < m -> 0 < poisson_pmf m n.
Proof. intros Hm. rewrite pmf_exp by auto. apply exp_pos. Qed.
Lemma pmf_step m n : poisson_pmf m (S n) = poisson_pmf m n * (m / (INR n + 1)).
Proof. unfold poisson_pmf. rewrite fact_simpl, mult_INR, S_INR. cbn [pow]. pose proof (INR_fact_lt_0 n). pose proof (pos_INR n). field. split; lra. Qed.
Lemma pmf_total m : is_series (poisson_pmf m) 1.
Proof.
  pose proof (is_exp_Reals m) as E. unfold is_pseries in E. apply (is_series_scal_l (exp (- m))) in E. rewrite <- exp_0. replace 0 with (- m + m) by ring. rewrite exp_plus.
  refine (is_series_ext _ _ _ _ E). intros k. rewrite pow_n_pow. unfold poisson_pmf. unfold scal, mult; cbn. unfold mult; cbn. unfold Rdiv. ring.
Qed.
Fixpoint below (m : R) (n : nat) : R := match n with O => 0 | S k => below m k + poisson_pmf m k end.
Lemma below_sum m n : sum_n (poisson_pmf m) n = below m (S n).
Proof. induction n as [|n IH]; [rewrite sum_O; symmetry; apply Rplus_0_l|]. rewrite sum_Sn, IH. reflexivity. Qed.
Lemma tail_exists m n : poisson_tail m n (1 - below m n).
Proof.
  unfold poisson_tail. destruct n as [|n]; [cbn [below]; rewrite Rminus_0_r; exact (pmf_total m)|]. apply (is_series_incr_n (poisson_pmf m) (S n)); [lia|]. cbn [pred]. rewrite below_sum. change (plus (1 - below m (S n)) (below m (S n))) with (1 - below m (S n) + below m (S n)). replace (1 - below m (S n) + below m (S n)) with 1 by ring. apply pmf_total.
Qed.
Lemma tail_is m n t : poisson_tail m n t -> t = 1 - below m n.
Proof. intros T. apply is_series_unique in T. pose proof (is_series_unique _ _ (tail_exists m n)) as U. now rewrite T in U. Qed.
Fixpoint above (m : R) (n i : nat) : R := match i with O => 0 | S k => above m n k + poisson_pmf m (n + k) end.
Lemma above_sum m n i : sum_n (fun k => poisson_pmf m (n + k)) i = above m n (S i).
Proof. induction i as [|i IH]; [rewrite sum_O; symmetry; apply Rplus_0_l|]. rewrite sum_Sn, IH. reflexivity. Qed.
Lemma above_le m n i t : 0 < m -> poisson_tail m n t -> above m n i <= t.
Proof.
  intros Hm T. change (is_lim_seq (sum_n (fun k => poisson_pmf m (n + k))) t) in T.
  assert (I : forall k, sum_n (fun k => poisson_pmf m (n + k)) k <= sum_n (fun k => poisson_pmf m (n + k)) (S k)) by (intros k; rewrite sum_Sn; change (@plus R_AbelianGroup) with Rplus; pose proof (pmf_pos m (n + S k) Hm); lra).
  pose proof (is_lim_seq_incr_compare _ _ T I) as C. destruct i as [|i]; [|rewrite <- above_sum; apply C]. specialize (C 0%nat). rewrite above_sum in C. cbn [above] in *. pose proof (pmf_pos m (n + 0) Hm). lra.
Qed.
Lemma pmf_mirror m n j : 0 < m -> INR n <= m -> (S j <= n)%nat -> poisson_pmf m (n - S j) <= poisson_pmf m (n + j).
Proof.
  intros Hm Hn. induction j as [|j IH]; intros Hj.
  - rewrite Nat.add_0_r. destruct n as [|k]; [lia|]. replace (S k - 1)%nat with k by lia. rewrite pmf_step. rewrite S_INR in Hn. pose proof (pmf_pos m k Hm). pose proof (pos_INR k).
    rewrite <- (Rmult_1_r (poisson_pmf m k)) at 1. apply Rmult_le_compat_l; [lra|]. apply Rmult_le_reg_r with (INR k + 1); [lra|]. unfold Rdiv. rewrite Rmult_assoc, Rinv_l; lra.
  - specialize (IH ltac:(lia)). assert (E : exists k, n = (k + S (S j))%nat) by (exists (n - S (S j))%nat; lia). destruct E as (k & E).
    replace (n - S (S j))%nat with k by lia. replace (n - S j)%nat with (S k) in IH by lia. replace (n + S j)%nat with (S (n + j)) by lia. rewrite pmf_step in IH. rewrite pmf_step.
    pose proof (pmf_pos m k Hm). pose proof (pmf_pos m (n + j) Hm). pose proof (pos_INR k). pose proof (pos_INR (n + j)).
    assert (EN : INR n = INR k + INR j + 2) by (rewrite E, plus_INR, !S_INR; ring). assert (EJ : INR (n + j) = INR k + 2 * INR j + 2) by (rewrite plus_INR, EN; ring). pose proof (pos_INR j).
    apply Rle_trans with (poisson_pmf m k * (m / (INR k + 1)) * (m / (INR (n + j) + 1))).
    + replace (poisson_pmf m k * (m / (INR k + 1)) * (m / (INR (n + j) + 1))) with (poisson_pmf m k * (m * m / ((INR k + 1) * (INR (n + j) + 1)))) by (field; split; lra). rewrite <- (Rmult_1_r (poisson_pmf m k)) at 1. apply Rmult_le_compat_l; [lra|].
      assert (P : 0 < (INR k + 1) * (INR (n + j) + 1)) by (apply Rmult_lt_0_compat; lra). apply Rmult_le_reg_r with ((INR k + 1) * (INR (n + j) + 1)); auto. unfold Rdiv. rewrite Rmult_assoc, Rinv_l by lra. rewrite EJ. nra.
    + apply Rmult_le_compat_r; auto. left. apply Rdiv_lt_0_compat; lra.
Qed.
Lemma below_above m n i : 0 < m -> INR n <= m -> (i <= n)%nat -> below m n - below m (n - i) <= above m n i.
Proof.
  intros Hm Hn. induction i as [|i IH]; intros Hi; [rewrite Nat.sub_0_r; cbn [above]; lra|]. specialize (IH ltac:(lia)). pose proof (pmf_mirror m n i Hm Hn Hi) as M. cbn [above].
  assert (E : below m (n - i) = below m (n - S i) + poisson_pmf m (n - S i)) by (replace (n - i)%nat with (S (n - S i)) by lia; reflexivity). lra.
Qed.
(** with a mean of n at least, the tail from n is at least one half *)
Lemma tail_half m n t : 0 < m -> INR n <= m -> poisson_tail m n t -> 1 / 2 <= t /\ below m n <= t /\ 0 <= below m n.
Proof.
  intros Hm Hn T. pose proof (below_above m n n Hm Hn (le_n _)) as B. rewrite Nat.sub_diag in B. cbn [below] in B. pose proof (above_le m n n t Hm T). pose proof (tail_is m n t T).
  assert (P : forall k, 0 <= below m k) by (induction k as [|k IH]; cbn [below]; [lra|pose proof (pmf_pos m k Hm); lra]). pose proof (P n). lra.
Qed.
Lemma below_jj m n : (1 <= n)%nat -> below m n = exp (- m) * (jj m 0 (n - 1) / INR (fact (n - 1))).
Proof.
  intros Hn. rewrite jj_sum. destruct n as [|n]; [lia|]. replace (S n - 1)%nat with n by lia. clear Hn. induction n as [|n IH]; [cbn [below]; rewrite sum_O; unfold poisson_pmf; cbn; field|].
  change (below m (S (S n))) with (below m (S n) + poisson_pmf m (S n)). rewrite IH, sum_Sn. change (@plus R_AbelianGroup) with Rplus. unfold poisson_pmf. unfold Rdiv. ring.
Qed.
(** the tail as the power series *)
Lemma pmf_pc m n k : 0 < m -> poisson_pmf m (n + k) = poisson_pmf m n * pc (INR n) m k.
Proof.
  intros Hm. induction k as [|k IH]; [rewrite Nat.add_0_r; cbn [pc]; ring|]. rewrite Nat.add_succ_r, pmf_step, IH, plus_INR. cbn [pc]. rewrite Rmult_assoc. reflexivity.
Qed.
Lemma tail_series m n t : 0 < m -> poisson_tail m n t -> is_series (pc (INR n) m) (t / poisson_pmf m n).
Proof.
  intros Hm T. unfold poisson_tail in T. apply (is_series_scal_l (/ poisson_pmf m n)) in T. unfold Rdiv. rewrite (Rmult_comm t). refine (is_series_ext _ _ _ _ T). intros k. rewrite pmf_pc by auto. unfold scal, mult; cbn. unfold mult; cbn. pose proof (pmf_pos m n Hm). field. lra.
Qed.

Lemma exp_mono x y : x <= y -> exp x <= exp y.
Proof. intros [L| ->]; [left; now apply exp_increasing|lra]. Qed.
Lemma within_mono d e p q : 0 <= q -> d <= e -> within d p q -> within e p q.
Proof. intros Hq L (A & B). unfold within. pose proof (exp_mono d e L). pose proof (exp_mono (- e) (- d) ltac:(lra)). split; nra. Qed.
Lemma within_mult d e p q r s : 0 <= q -> 0 <= s -> within d p q -> within e r s -> within (d + e) (p * r) (q * s).
Proof.
  intros Hq Hs (A & B) (C & D). unfold within. rewrite Ropp_plus_distr, !exp_plus. pose proof (exp_pos (- d)). pose proof (exp_pos (- e)). split.
  - replace (q * s * (exp (- d) * exp (- e))) with (q * exp (- d) * (s * exp (- e))) by ring. apply Rmult_le_compat; auto; nra.
  - replace (q * s * (exp d * exp e)) with (q * exp d * (s * exp e)) by ring. assert (0 <= q * exp (- d)) by nra. assert (0 <= s * exp (- e)) by nra. apply Rmult_le_compat; lra.
Qed.
Lemma within_inv d p q : 0 < q -> within d p q -> within d (/ p) (/ q).
Proof.
  intros Hq (A & B). pose proof (exp_pos d) as Pd. pose proof (exp_pos (- d)) as Pm. assert (E : exp d * exp (- d) = 1) by (rewrite <- exp_plus, Rplus_opp_r; apply exp_0). assert (P : 0 < p) by nra. unfold within. split.
  - replace (/ q * exp (- d)) with (/ (q * exp d)). apply Rinv_le_contravar; auto. rewrite Rinv_mult. f_equal. rewrite exp_Ropp. reflexivity.
  - replace (/ q * exp d) with (/ (q * exp (- d))). apply Rinv_le_contravar; nra. rewrite Rinv_mult. f_equal. rewrite exp_Ropp, Rinv_inv. reflexivity.
Qed.
Lemma exp_upper x : 0 <= x <= 1 / 2 -> exp x <= 1 + 2 * x.
Proof. intros Hx. pose proof (exp_ineq1_le (- x)) as E. rewrite exp_Ropp in E. pose proof (exp_pos x) as P. assert (exp x * (1 - x) <= 1). { apply (Rmult_le_compat_l (exp x)) in E; [|lra]. rewrite Rinv_r in E by lra. lra. } nra. Qed.
Lemma exp_upper_neg x : 0 <= x -> exp (- x) <= 1 - x + x * x.
Proof. intros Hx. pose proof (exp_ineq1_le x) as E. rewrite exp_Ropp. apply Rle_trans with (/ (1 + x)); [apply Rinv_le_contravar; lra|]. apply Rmult_le_reg_r with (1 + x); [lra|]. rewrite Rinv_l by lra. nra. Qed.
(** the complement of a small error *)
Lemma within_complement d q q' t : 0 <= d <= 1 / 8 -> 0 <= q -> q <= t -> t = 1 - q -> within d q' q -> within (4 * d) (1 - q') t.
Proof.
  intros Hd Hq Hqt Et (A & B). pose proof (exp_upper d ltac:(lra)) as U. pose proof (exp_ineq1_le (- d)) as L. assert (Q : q * (1 - 2 * d) <= q' <= q * (1 + 2 * d)) by (split; nra).
  unfold within. pose proof (exp_ineq1_le (4 * d)). pose proof (exp_upper_neg (4 * d) ltac:(lra)) as M.
  assert (D2 : 16 * (d * d) <= 2 * d) by nra. assert (M' : exp (- (4 * d)) <= 1 - 2 * d) by lra. assert (Q2 : d * q <= d * t) by (apply Rmult_le_compat_l; lra). assert (Pt : 0 < t) by lra.
  assert (t * exp (- (4 * d)) <= t * (1 - 2 * d)) by (apply Rmult_le_compat_l; lra). assert (t * (1 + 4 * d) <= t * exp (4 * d)) by (apply Rmult_le_compat_l; lra). assert (0 <= d * t) by nra. split; nra.
Qed.

Section Prob.
Context (eps : Epsilon).
Variable u : R.
#[local] Hint Extern 0 (Num R) => exact (Rnum eps) : typeclass_instances.
#[local] Hint Extern 0 (Trans R) => exact (Rtrans u) : typeclass_instances.

Definition lg_error (n : nat) : R := u * ln (INR (fact (n - 1))) + 1 / (3 * 10 ^ 11).
Lemma log_gamma_whole k n : 1 / 10 ^ 19 <= u -> (1 <= n)%nat ->
  exists g, log_gamma_ (S k) (INR n) = Some (Ret g) /\ Rabs (g - ln (INR (fact (n - 1)))) <= lg_error n /\ Rabs (g - ln (INR (fact (n - 1)))) <= 1 / 100.
Proof.
  intros Hu Hn. unfold lg_error. destruct (Nat.le_gt_cases n 2) as [L|L].
  - exists 0. assert (E : ln (INR (fact (n - 1))) = 0) by (destruct n as [|[|[|n]]]; try lia; cbn [Nat.sub fact Nat.mul Nat.add INR]; apply ln_1). rewrite E, Rminus_0_r, Rabs_R0. split; [|split; [|lra]]; [|assert (0 < 1 / (3 * 10 ^ 11)) by (apply Rdiv_lt_0_compat; lra); lra].
    assert (C : INR n = 1 \/ INR n = 2) by (destruct n as [|[|[|n]]]; try lia; cbn [INR]; lra). cbn [log_gamma_]. change (nltb (INR n) nhalf) with (Rlt_bool (INR n) (1 / 2)). change (neqb (INR n) nhalf) with (Req_bool (INR n) (1 / 2)). change (neqb (INR n) n1) with (Req_bool (INR n) 1). change (neqb (INR n) n2) with (Req_bool (INR n) 2).
    rewrite Rlt_bool_false, (Req_bool_false _ (1 / 2)) by lra. destruct C as [-> | ->]; [rewrite Req_bool_true by auto; reflexivity|rewrite Req_bool_false, Req_bool_true by lra; reflexivity].
  - destruct (log_gamma_int eps u (n - 1) k Hu ltac:(lia)) as (g & E & B1 & B2). assert (EN : INR (n - 1) + 1 = INR n) by (rewrite minus_INR by lia; cbn [INR]; ring). rewrite EN in E. exists g. split; auto. split; auto.
    eapply Rle_trans; [exact B1|]. apply Rplus_le_compat_l. unfold cut. pose proof (Rmax_r (INR (n - 1) + 1) 10) as M. pose proof (inv_pow_small _ 7 M) as P. unfold Rdiv in *. lra.
Qed.

(** the two branches *)
Lemma conditional_series m n t : 1 / 10 ^ 19 <= u < 1 -> 0 < m -> (1 <= n < 2 ^ 32 - 1)%Z -> m <= IZR n + 1 -> poisson_tail m (Z.to_nat n) t ->
  exists N, forall fuel, (N <= fuel)%nat -> exists h, poisson_conditional fuel m n = Some (Ret h) /\
    poisson_pmf m (Z.to_nat n) / t <= h <= poisson_pmf m (Z.to_nat n) / t * (1 + u * (IZR n + 1)).
Proof.
  intros Hu Hm Hn Hmn T. assert (Pu : 0 < u) by (assert (0 < 1 / 10 ^ 19) by (apply Rdiv_lt_0_compat; lra); lra). assert (EN : INR (Z.to_nat n) = IZR n) by (rewrite INR_IZR_INZ, Z2Nat.id by lia; reflexivity).
  assert (N1 : 1 <= IZR n) by (apply IZR_le; lia).
  destruct (igam_nop_value eps u (IZR n) m ltac:(lra) ltac:(lra) ltac:(lra)) as (N & HN). exists N. intros fuel Hf. destruct (HN fuel Hf) as (K & HK & HB & E).
  exists (1 / ps (IZR n) m K). split.
  - unfold poisson_conditional. change (nleb n0 m) with (Rle_bool 0 m). rewrite Rle_bool_true by lra. cbn [oassert rbind]. change (neqb m n0) with (Req_bool m 0). rewrite Req_bool_false by lra.
    destruct (Z.eqb_spec n 0) as [Q|_]; [lia|]. unfold uwrap. rewrite Z.mod_small by lia. change (nltb (nofZ (n + 1)) m) with (Rlt_bool (IZR (n + 1)) m). rewrite plus_IZR, Rlt_bool_false by lra. change (nofZ n) with (IZR n). rewrite E. reflexivity.
  - pose proof (tail_series m _ t Hm T) as S. rewrite EN in S. pose proof (series_rest (IZR n) m ltac:(lra) ltac:(lra) _ K S HK) as (B1 & B2). pose proof (pmf_pos m (Z.to_nat n) Hm) as Pp. pose proof (ps_ge (IZR n) m ltac:(lra) ltac:(lra) K) as PS. pose proof (pc_pos (IZR n) m ltac:(lra) ltac:(lra) K) as PC.
    set (s := t / poisson_pmf m (Z.to_nat n)) in *. set (S0 := ps (IZR n) m K) in *. set (c := pc (IZR n) m K) in *. assert (Ps : 1 <= s) by lra. assert (Es : poisson_pmf m (Z.to_nat n) / t = 1 / s). { unfold s. assert (t <> 0) by (intros Z; unfold s in Ps; rewrite Z in Ps; unfold Rdiv in Ps; lra). field. split; lra. }
    rewrite Es. apply le_INR in HK. change (INR 1) with 1 in HK. assert (B3 : s <= S0 * (1 + u * (IZR n + 1))).
    { eapply Rle_trans; [exact B2|]. assert (c * ((IZR n + 1) / INR K) <= u * S0 * (IZR n + 1)); [|lra]. apply Rmult_le_compat; try lra; [left; apply Rdiv_lt_0_compat; lra|]. apply Rmult_le_reg_r with (INR K); [lra|]. unfold Rdiv. rewrite Rmult_assoc, Rinv_l by lra. nra. }
    split.
    + unfold Rdiv. apply Rmult_le_compat_l; [lra|]. apply Rinv_le_contravar; lra.
    + apply Rmult_le_reg_r with S0; [lra|]. replace (1 / S0 * S0) with 1 by (field; lra). apply Rmult_le_reg_r with s; [lra|]. replace (1 / s * (1 + u * (IZR n + 1)) * S0 * s) with (S0 * (1 + u * (IZR n + 1))) by (field; lra). lra.
Qed.
Lemma conditional_fraction m n t fuel : 1 / 10 ^ 19 <= u <= 1 / 100 -> (1 <= n < 2 ^ 32 - 1)%Z -> IZR n + 1 < m -> poisson_tail m (Z.to_nat n) t -> (Z.to_nat n <= fuel)%nat ->
  exists h, poisson_conditional fuel m n = Some (Ret h) /\ within (lf_error u n + 4 * (lg_error (Z.to_nat n) + 2 * u)) h (poisson_pmf m (Z.to_nat n) / t).
Proof.
  intros Hu Hn Hmn T Hf. assert (Pu : 0 < u) by (assert (0 < 1 / 10 ^ 19) by (apply Rdiv_lt_0_compat; lra); lra). assert (EN : INR (Z.to_nat n) = IZR n) by (rewrite INR_IZR_INZ, Z2Nat.id by lia; reflexivity).
  assert (N1 : 1 <= IZR n) by (apply IZR_le; lia). set (N := Z.to_nat n) in *. assert (HN : (1 <= N)%nat) by (unfold N; lia). assert (Hm : 0 < m) by lra.
  destruct (poisson_value eps u m n ltac:(lra) ltac:(lra) ltac:(lia)) as (p & Ep & Bp). fold N in Bp.
  destruct (log_gamma_whole 1 N ltac:(lra) HN) as (g & Eg & Bg1 & Bg2).
  destruct (igamc_nop_value eps u N m HN ltac:(lra) fuel ltac:(lra) Hf) as (r & Er & Br & PX). set (X := yy N m 0 / m ^ N) in *.
  set (pre := exp (INR N * ln m - m - g)). set (Q := below m N). destruct (tail_half m N t Hm ltac:(lra) T) as (T1 & T2 & T3). pose proof (tail_is m N t T) as Et.
  exists (p / (1 - r * pre)). split.
  - unfold poisson_conditional. change (nleb n0 m) with (Rle_bool 0 m). rewrite Rle_bool_true by lra. cbn [oassert rbind]. change (neqb m n0) with (Req_bool m 0). rewrite Req_bool_false by lra.
    destruct (Z.eqb_spec n 0) as [Z0|_]; [lia|]. unfold uwrap. rewrite Z.mod_small by lia. change (nltb (nofZ (n + 1)) m) with (Rlt_bool (IZR (n + 1)) m). rewrite plus_IZR, Rlt_bool_true by lra. rewrite Ep. cbn [rbind].
    change (nofZ n) with (IZR n). rewrite <- EN. unfold igam. cbn [igam_]. change (nleb n0 m) with (Rle_bool 0 m). change (nleb n0 (INR N)) with (Rle_bool 0 (INR N)). rewrite !Rle_bool_true by lra. cbn [andb oassert rbind].
    change (neqb (INR N) n0) with (Req_bool (INR N) 0). change (neqb m n0) with (Req_bool m 0). rewrite !Req_bool_false by lra. change (nltb (nadd (INR N) n1) m) with (Rlt_bool (INR N + 1) m). change (nltb m (nadd (INR N) n1)) with (Rlt_bool m (INR N + 1)). rewrite Rlt_bool_true, Rlt_bool_false by lra.
    unfold log_gamma. rewrite Eg. cbn [rbind]. rewrite Er. cbn [rbind]. reflexivity.
  - (* the complement *)
    assert (EQ : Q = X * exp (INR N * ln m - m - ln (INR (fact (N - 1))))).
    { unfold Q. rewrite below_jj by auto. unfold X, yy. destruct (Nat.ltb_spec 0 N); [|lia]. rewrite Nat.sub_0_r. change (INR (fact 0)) with 1. unfold Rminus. rewrite !exp_plus, (exp_Ropp (ln _)), exp_ln by apply INR_fact_lt_0.
      replace (exp (INR N * ln m)) with (m ^ N) by (rewrite <- ln_pow, exp_ln by (auto; apply pow_lt; auto); reflexivity). pose proof (INR_fact_lt_0 (N - 1)). pose proof (pow_lt m N Hm). unfold Rminus in *. field. split; lra. }
    set (d := Rabs (g - ln (INR (fact (N - 1)))) + 2 * u). assert (Hd : 0 <= d <= 3 / 100) by (unfold d; pose proof (Rabs_pos (g - ln (INR (fact (N - 1))))); lra).
    assert (Wr : within (2 * u) r X).
    { apply Rabs_le_between in Br. assert (U : u / (1 - u) <= 102 / 100 * u). { apply Rmult_le_reg_r with (1 - u); [lra|]. unfold Rdiv. rewrite Rmult_assoc, Rinv_l by lra. nra. }
      assert (0 < u / (1 - u)) by (apply Rdiv_lt_0_compat; lra). unfold within. pose proof (exp_ineq1_le (2 * u)). pose proof (exp_upper_neg (2 * u) ltac:(lra)) as M. set (w := u / (1 - u)) in *. clearbody w. assert (D2 : 4 * (u * u) <= 4 / 100 * u) by nra.
      assert (w * X <= 102 / 100 * u * X) by (apply Rmult_le_compat_r; lra). assert (X * exp (- (2 * u)) <= X * (1 - 196 / 100 * u)) by (apply Rmult_le_compat_l; lra). assert (X * (1 + 2 * u) <= X * exp (2 * u)) by (apply Rmult_le_compat_l; lra). assert (0 < u * X) by nra. split; lra. }
    assert (Wq : within d (r * pre) Q).
    { rewrite EQ. replace d with (2 * u + Rabs (g - ln (INR (fact (N - 1))))) by (unfold d; ring). apply within_mult; [lra|left; apply exp_pos|exact Wr|]. unfold pre. apply within_exp. replace (_ - _) with (- (g - ln (INR (fact (N - 1))))) by ring. rewrite Rabs_Ropp. lra. }
    assert (Wt : within (4 * d) (1 - r * pre) t) by (apply within_complement with Q; auto; lra). pose proof (pmf_pos m N Hm).
    unfold Rdiv. apply within_mono with (lf_error u n + 4 * d); [left; apply Rmult_lt_0_compat; [lra|apply Rinv_0_lt_compat; lra]|unfold d; lra|]. apply within_mult; [lra|left; apply Rinv_0_lt_compat; lra|exact Bp|]. apply within_inv; [lra|exact Wt].
Qed.
Lemma conditional_zero m fuel : 0 <= m -> poisson_conditional fuel m 0 = Some (Ret (exp (- m))).
Proof.
  intros Hm. unfold poisson_conditional. change (nleb n0 m) with (Rle_bool 0 m). rewrite Rle_bool_true by lra. cbn [oassert rbind Z.eqb]. change (neqb m n0) with (Req_bool m 0). destruct (Req_bool_spec m 0) as [->|]; [|reflexivity]. rewrite Ropp_0, exp_0. reflexivity.
Qed.
End Prob.
