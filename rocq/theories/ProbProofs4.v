(** PoissonConditional: the power series and the continued fraction (C61). *)
From Coq Require Import ZArith Reals List Lra Lia Psatz Bool.
From Coquelicot Require Import Coquelicot.
From Flocq Require Import Core.Raux Core.Zaux.
From Verif Require Import Base Scalar RLib MiniballModel ProbModel Stirling GammaSpec GammaProofs ProbSpec ProbProofs ProbProofs2 ProbProofs3.
Import ListNotations.
Open Scope R_scope.

(** * The power series 1 + z/(a+1) + z^2/((a+1)(a+2)) + ... *)
Fixpoint pc (a z : R) (k : nat) : R := match k with O => 1 | S j => pc a z j * (z / (a + INR j + 1)) end.
Fixpoint ps (a z : R) (k : nat) : R := match k with O => 1 | S j => ps a z j + pc a z (S j) end.

Section Series.
Variables a z : R.
Hypothesis Ha : 0 < a.
Hypothesis Hz : 0 < z <= a + 1.
Lemma pc_pos k : 0 < pc a z k.
Proof. induction k as [|k IH]; cbn [pc]; [lra|]. apply Rmult_lt_0_compat; auto. apply Rdiv_lt_0_compat; [lra|]. pose proof (pos_INR k). lra. Qed.
Lemma ps_ge k : 1 <= ps a z k.
Proof. induction k as [|k IH]; cbn [ps]; [lra|]. pose proof (pc_pos (S k)). lra. Qed.
Lemma pc_step K k : (K <= k)%nat -> pc a z (S k) <= pc a z k * ((a + 1) / (a + INR K + 1)).
Proof.
  intros L. apply le_INR in L. cbn [pc]. pose proof (pc_pos k). apply Rmult_le_compat_l; [lra|]. pose proof (pos_INR K). unfold Rdiv. apply Rmult_le_compat; try lra; [left; apply Rinv_0_lt_compat; lra|apply Rinv_le_contravar; lra].
Qed.
Lemma pc_geo k : pc a z (S k) <= ((a + 1) / (a + 2)) ^ k.
Proof.
  induction k as [|k IH].
  - cbn [pc pow INR]. rewrite Rmult_1_l, Rplus_0_r. apply Rmult_le_reg_r with (a + 1); [lra|]. unfold Rdiv. rewrite Rmult_assoc, Rinv_l; lra.
  - eapply Rle_trans; [apply (pc_step 1); lia|]. cbn [pow]. rewrite Rmult_comm. change (INR 1) with 1. replace (a + 1 + 1) with (a + 2) by ring. apply Rmult_le_compat_l; [|exact IH]. left. apply Rdiv_lt_0_compat; lra.
Qed.
Lemma pc_small e : 0 < e -> exists k, pc a z k <= e.
Proof.
  intros He. assert (Q : Rabs ((a + 1) / (a + 2)) < 1). { rewrite Rabs_pos_eq by (left; apply Rdiv_lt_0_compat; lra). apply Rmult_lt_reg_r with (a + 2); [lra|]. unfold Rdiv. rewrite Rmult_assoc, Rinv_l; lra. }
  destruct (pow_lt_1_zero _ Q e He) as (N & HN). exists (S N). eapply Rle_trans; [apply pc_geo|]. specialize (HN N (le_n _)). rewrite Rabs_pos_eq in HN; [lra|]. apply pow_le. left. apply Rdiv_lt_0_compat; lra.
Qed.
(** what is left out after K terms *)
Lemma ps_rest K N : (1 <= K <= N)%nat -> ps a z N + pc a z N * ((a + 1) / INR K) <= ps a z K + pc a z K * ((a + 1) / INR K).
Proof.
  intros (K1 & L). induction L as [|N L IH]; [lra|]. eapply Rle_trans; [|exact IH]. cbn [ps]. pose proof (pc_step K N L) as Q. pose proof (le_INR _ _ K1) as K1'. change (INR 1) with 1 in K1'.
  assert (E : pc a z (S N) * (1 + (a + 1) / INR K) <= pc a z N * ((a + 1) / INR K)); [|lra]. replace (1 + (a + 1) / INR K) with ((a + INR K + 1) / INR K) by (field; lra).
  eapply Rle_trans; [apply Rmult_le_compat_r; [|exact Q]; left; apply Rdiv_lt_0_compat; lra|]. right. field. lra.
Qed.
Lemma ps_mono K N : (K <= N)%nat -> ps a z K <= ps a z N.
Proof. intros L. induction L as [|N L IH]; [lra|]. cbn [ps]. pose proof (pc_pos (S N)). lra. Qed.
Lemma ps_sum k : sum_n (pc a z) k = ps a z k.
Proof. induction k as [|k IH]; [rewrite sum_O; reflexivity|]. rewrite sum_Sn, IH. reflexivity. Qed.
Lemma series_rest s K : is_series (pc a z) s -> (1 <= K)%nat -> ps a z K <= s <= ps a z K + pc a z K * ((a + 1) / INR K).
Proof.
  intros S HK. change (is_lim_seq (sum_n (pc a z)) s) in S. pose proof (le_INR _ _ HK) as HK'. change (INR 1) with 1 in HK'. split.
  - apply (is_lim_seq_le_loc (fun _ => ps a z K) (sum_n (pc a z)) (ps a z K) s); [|apply is_lim_seq_const|exact S]. exists K. intros n Hn. rewrite ps_sum. now apply ps_mono.
  - apply (is_lim_seq_le_loc (sum_n (pc a z)) (fun _ => ps a z K + pc a z K * ((a + 1) / INR K)) s (ps a z K + pc a z K * ((a + 1) / INR K))); [|exact S|apply is_lim_seq_const]. exists K. intros n Hn. rewrite ps_sum.
    pose proof (ps_rest K n ltac:(lia)) as Q. assert (0 <= pc a z n * ((a + 1) / INR K)) by (apply Rmult_le_pos; [left; apply pc_pos|left; apply Rdiv_lt_0_compat; lra]). lra.
Qed.
End Series.

(** * The continued fraction for a whole number *)
(** the integral of s^p (s+z)^q exp(-s) over the positive numbers *)
Fixpoint jj (z : R) (p q : nat) : R := match q with O => INR (fact p) | S r => jj z (S p) r + z * jj z p r end.
Lemma jj_pos z p q : 0 < z -> 0 < jj z p q.
Proof. intros Hz. revert p. induction q as [|q IH]; intros p; cbn [jj]; [apply INR_fact_lt_0|]. pose proof (IH (S p)). pose proof (IH p). nra. Qed.
Lemma jj_parts z : forall q p, jj z (S p) (S q) = INR (S p) * jj z p (S q) + INR (S q) * jj z (S p) q.
Proof.
  induction q as [|q IH]; intros p.
  - cbn [jj]. rewrite (fact_simpl (S p)), (fact_simpl p), !mult_INR, !S_INR. cbn [INR]. ring.
  - pose proof (IH (S p)) as I1. pose proof (IH p) as I2. assert (D1 : jj z (S p) (S (S q)) = jj z (S (S p)) (S q) + z * jj z (S p) (S q)) by reflexivity.
    assert (D2 : jj z p (S (S q)) = jj z (S p) (S q) + z * jj z p (S q)) by reflexivity. assert (D3 : jj z (S p) (S q) = jj z (S (S p)) q + z * jj z (S p) q) by reflexivity.
    rewrite D1, I1, D2. clear D1 D2 I1. rewrite !S_INR in *. generalize dependent (jj z (S p) (S q)). intros X I2 D3. generalize dependent (jj z p (S q)). intros W I2.
    assert (Y : jj z (S (S p)) q = X - z * jj z (S p) q) by lra. rewrite Y. clear D3 Y. generalize dependent (jj z (S p) q). intros V I2. apply Rminus_diag_uniq.
    transitivity (z * (X - ((INR p + 1) * W + (INR q + 1) * V))); [ring|]. rewrite <- I2. ring.
Qed.
Lemma jj_front z q : jj z 0 (S q) = z ^ S q + INR (S q) * jj z 0 q.
Proof.
  induction q as [|q IH]; [cbn; ring|]. assert (D : jj z 0 (S (S q)) = jj z 1 (S q) + z * jj z 0 (S q)) by reflexivity. rewrite D, (jj_parts z q 0), IH at 1. assert (D' : jj z 0 (S q) = jj z 1 q + z * jj z 0 q) by reflexivity.
  assert (Y : jj z 1 q = jj z 0 (S q) - z * jj z 0 q) by lra. rewrite Y. rewrite IH. cbn [pow]. rewrite !S_INR. change (INR 0) with 0. ring.
Qed.
Lemma jj_sum z q : jj z 0 q / INR (fact q) = sum_n (fun k => z ^ k / INR (fact k)) q.
Proof.
  induction q as [|q IH]; [rewrite sum_O; cbn; field|]. rewrite sum_Sn, <- IH, jj_front. change (@plus R_AbelianGroup) with Rplus. rewrite fact_simpl, mult_INR. pose proof (INR_fact_lt_0 q). pose proof (pos_INR q). rewrite S_INR. field. split; lra.
Qed.

Section Fraction.
Variables (n : nat) (z : R).
Hypothesis Hn : (1 <= n)%nat.
Hypothesis Hz : INR n + 1 <= z.
Lemma z_pos : 0 < z.
Proof. pose proof (pos_INR n). lra. Qed.
(** the minimal solution of the recurrence, zero from n on *)
Definition yy (j : nat) : R := if Nat.ltb j n then jj z j (n - 1 - j) / INR (fact j) else 0.
Definition bb (j : nat) : R := z + 1 - INR n + 2 * INR j.
Definition alpha (j : nat) : R := INR j * (INR n - INR j).
Lemma yy_pos j : (j < n)%nat -> 0 < yy j.
Proof. intros Hj. unfold yy. destruct (Nat.ltb_spec j n); [|lia]. apply Rdiv_lt_0_compat; [apply jj_pos, z_pos|apply INR_fact_lt_0]. Qed.
Lemma yy_nonneg j : 0 <= yy j.
Proof. destruct (Nat.lt_ge_cases j n) as [L|L]; [left; now apply yy_pos|]. unfold yy. destruct (Nat.ltb_spec j n); [lia|lra]. Qed.
Lemma alpha_nonneg j : (j <= n)%nat -> 0 <= alpha j.
Proof. intros Hj. unfold alpha. apply le_INR in Hj. pose proof (pos_INR j). nra. Qed.
Lemma bb_pos j : 2 <= bb j.
Proof. unfold bb. pose proof (pos_INR j). lra. Qed.
Lemma yy_top : z ^ n = bb 0 * yy 0 + alpha 1 * yy 1.
Proof.
  unfold bb, alpha, yy. change (INR 1) with 1. change (INR 0) with 0. destruct (Nat.ltb_spec 0 n); [|lia]. change (INR (fact 0)) with 1. change (INR (fact 1)) with 1.
  destruct n as [|m]; [lia|]. cbn [Nat.sub]. rewrite !Nat.sub_0_r. pose proof (jj_front z m) as F. assert (D : jj z 0 (S m) = jj z 1 m + z * jj z 0 m) by reflexivity.
  destruct (Nat.ltb_spec 1 (S m)) as [L|L].
  - destruct m as [|k]; [lia|]. cbn [Nat.sub]. rewrite Nat.sub_0_r. pose proof (jj_parts z k 0) as P. rewrite !S_INR in *. change (INR 0) with 0 in *. rewrite D, P in F. field_simplify. lra.
  - assert (m = 0)%nat by lia. subst m. cbn [jj fact INR pow Nat.mul Nat.add]. field.
Qed.
Lemma yy_step j : (S j < n)%nat -> yy j = bb (S j) * yy (S j) + alpha (S (S j)) * yy (S (S j)).
Proof.
  intros Hj. unfold bb, alpha, yy. destruct (Nat.ltb_spec j n); [|lia]. destruct (Nat.ltb_spec (S j) n); [|lia].
  pose proof (INR_fact_lt_0 j) as F0. pose proof (pos_INR j) as P0.
  assert (E : exists m, n = S (S (j + m))) by (exists (n - S (S j))%nat; lia). destruct E as (m & E).
  replace (n - 1 - j)%nat with (S m) by lia. replace (n - 1 - S j)%nat with m by lia.
  assert (EN : INR n = INR j + INR m + 2) by (rewrite E, !S_INR, plus_INR; ring). rewrite EN.
  pose proof (jj_parts z m j) as P1. assert (D1 : jj z (S j) (S m) = jj z (S (S j)) m + z * jj z (S j) m) by reflexivity.
  rewrite (fact_simpl (S j)), (fact_simpl j), !mult_INR, !S_INR in *.
  destruct (Nat.ltb_spec (S (S j)) n) as [L|L].
  - destruct m as [|k]; [lia|]. replace (n - 1 - S (S j))%nat with k by lia. pose proof (jj_parts z k (S j)) as P2. rewrite !S_INR in *. rewrite D1, P2 in P1. apply Rmult_eq_reg_r with ((INR j + 1) * INR (fact j)); [|nra].
    transitivity ((INR j + 1) * jj z j (S (S k))); [field; lra|].
    transitivity ((z + 1 - (INR j + (INR k + 1) + 2) + 2 * (INR j + 1)) * jj z (S j) (S k) + (INR j + 2 - INR j - 1) * (INR j + (INR k + 1) + 2 - (INR j + 1 + 1)) * jj z (S (S j)) k); [lra|field; lra].
  - assert (m = 0)%nat by lia. subst m. cbn [jj] in *. rewrite (fact_simpl (S j)), (fact_simpl j), !mult_INR, !S_INR in *. change (INR 0) with 0 in *. field; lra.
Qed.
End Fraction.
