(** PoissonConditional: the loops of the model and the result (C61). *)
From Coq Require Import ZArith Reals List Lra Lia Psatz Bool.
From Coquelicot Require Import Coquelicot.
From Flocq Require Import Core.Raux Core.Zaux.
From Verif Require Import Base Scalar RLib MiniballModel ProbModel Stirling GammaSpec GammaProofs ProbSpec ProbProofs ProbProofs2 ProbProofs3 ProbProofs4.
Import ListNotations.
Open Scope R_scope.

Lemma tiny_lt : bpow radix2 (-1022) * 1000 < 1.
Proof.
  assert (E : bpow radix2 (-10) = / 1024) by (cbn; lra). pose proof (bpow_le radix2 (-1022) (-10) ltac:(lia)) as L. rewrite E in L. lra.
Qed.
Lemma tiny_pos : 0 < bpow radix2 (-1022).
Proof. apply bpow_gt_0. Qed.

Section Prob.
Context (eps : Epsilon).
Variable u : R.
#[local] Hint Extern 0 (Num R) => exact (Rnum eps) : typeclass_instances.
#[local] Hint Extern 0 (Trans R) => exact (Rtrans u) : typeclass_instances.

(** * the power series *)
Lemma ps_stop fuel a z k : 0 < a -> 0 < z <= a + 1 -> pc a z k <= u * ps a z k -> power_series (S fuel) z (pc a z k) (a + INR k) (ps a z k) = Some (Ret (ps a z k)).
Proof.
  intros Ha Hz L. cbn [power_series]. change (ndiv (pc a z k) (ps a z k)) with (pc a z k / ps a z k). change (nltb tulp (nabs (pc a z k / ps a z k))) with (Rlt_bool u (Rabs (pc a z k / ps a z k))).
  pose proof (pc_pos a z Ha Hz k) as P. pose proof (ps_ge a z Ha Hz k) as S. rewrite Rabs_pos_eq by (left; apply Rdiv_lt_0_compat; lra). rewrite Rlt_bool_false; [reflexivity|]. apply Rmult_le_reg_r with (ps a z k); [lra|]. unfold Rdiv. rewrite Rmult_assoc, Rinv_l; lra.
Qed.
Lemma ps_next fuel a z k : 0 < a -> 0 < z <= a + 1 -> u * ps a z k < pc a z k ->
  power_series (S fuel) z (pc a z k) (a + INR k) (ps a z k) = power_series fuel z (pc a z (S k)) (a + INR (S k)) (ps a z (S k)).
Proof.
  intros Ha Hz L. cbn [power_series]. change (ndiv (pc a z k) (ps a z k)) with (pc a z k / ps a z k). change (nltb tulp (nabs (pc a z k / ps a z k))) with (Rlt_bool u (Rabs (pc a z k / ps a z k))).
  pose proof (pc_pos a z Ha Hz k) as P. pose proof (ps_ge a z Ha Hz k) as S. rewrite Rabs_pos_eq by (left; apply Rdiv_lt_0_compat; lra).
  rewrite Rlt_bool_true by (apply Rmult_lt_reg_r with (ps a z k); [lra|]; unfold Rdiv; rewrite Rmult_assoc, Rinv_l; lra).
  rewrite S_INR. cbn [ps pc]. change (nadd (a + INR k) n1) with (a + INR k + 1). rewrite <- Rplus_assoc. reflexivity.
Qed.
Lemma ps_run a z : 0 < a -> 0 < z <= a + 1 -> forall d k fuel, pc a z (k + d) <= u * ps a z (k + d) -> (d < fuel)%nat ->
  exists K, (k <= K)%nat /\ pc a z K <= u * ps a z K /\ power_series fuel z (pc a z k) (a + INR k) (ps a z k) = Some (Ret (ps a z K)).
Proof.
  intros Ha Hz. induction d as [|d IH]; intros k [|fuel] L Hf; try lia.
  - rewrite Nat.add_0_r in L. exists k. split; auto. split; auto. now apply ps_stop.
  - destruct (Rle_lt_dec (pc a z k) (u * ps a z k)) as [Q|Q].
    + exists k. split; auto. split; auto. now apply ps_stop.
    + rewrite ps_next by auto. replace (k + S d)%nat with (S k + d)%nat in L by lia. destruct (IH (S k) fuel L ltac:(lia)) as (K & HK & B & E). exists K. split; [lia|]. split; auto.
Qed.
Lemma igam_nop_value a z : 0 < u < 1 -> 0 < a -> 0 < z <= a + 1 ->
  exists N, forall fuel, (N <= fuel)%nat -> exists K, (1 <= K)%nat /\ pc a z K <= u * ps a z K /\ igam_nop fuel a z = Some (Ret (ps a z K)).
Proof.
  intros Hu Ha Hz. destruct (pc_small a z Ha Hz u ltac:(lra)) as (d & Hd). exists (S d). intros fuel Hf. unfold igam_nop. change (nleb z (nadd a n1)) with (Rle_bool z (a + 1)). change (nltb n0 z) with (Rlt_bool 0 z). change (nltb n0 a) with (Rlt_bool 0 a).
  rewrite Rle_bool_true, !Rlt_bool_true by lra. cbn [andb oassert rbind]. replace (power_series fuel z n1 a n1) with (power_series fuel z (pc a z 0) (a + INR 0) (ps a z 0)) by (cbn [pc ps INR]; rewrite Rplus_0_r; reflexivity).
  pose proof (ps_ge a z Ha Hz d). destruct (ps_run a z Ha Hz d 0 fuel) as (K & _ & B & E); [rewrite Nat.add_0_l; nra|lia|]. exists K. split; [|split; auto].
  destruct K; [|lia]. cbn [pc ps] in B. lra.
Qed.

(** * the continued fraction *)
Section Fraction.
Variables (n : nat) (z : R).
Hypothesis Hn : (1 <= n)%nat.
Hypothesis Hz : INR n + 1 <= z.
Let X0 := yy n z 0 / z ^ n.
Let b j := bb n z j.
Let y j := yy n z j.
Let al j := alpha n j.

Lemma cf_value (X : R) : 0 < u -> forall d j fuel A A' B',
  (j + d = n - 1)%nat -> (d < fuel)%nat -> 0 < A <= 1 -> 0 <= A' <= B' -> 0 < B' ->
  X * (y j + al (S j) * B' * y (S j)) = A * y j + al (S j) * A' * y (S j) ->
  exists r C, cf_loop fuel (INR n) (b j) A' B' A 1 (INR j + 1) false = Some (Ret r) /\ Rmin C r <= X <= Rmax C r /\ Rabs (r - C) < u * C /\ 0 < C.
Proof.
  intros Hu. induction d as [|d IH]; intros j [|fuel] A A' B' Hj Hf HA HA' HB Inv; try lia.
  all: cbn [cf_loop]; change (nmul (INR j + 1) (nsub (INR n) (INR j + 1))) with ((INR j + 1) * (INR n - (INR j + 1))); change (nadd (b j) n2) with (b j + 2).
  all: assert (Ea : (INR j + 1) * (INR n - (INR j + 1)) = al (S j)) by (unfold al, alpha; rewrite S_INR; reflexivity); rewrite Ea.
  all: assert (Eb : b j + 2 = b (S j)) by (unfold b, bb; rewrite S_INR; ring); rewrite Eb.
  all: set (An := nadd (nmul (b (S j)) A) (nmul (al (S j)) A')); set (Bn := nadd (nmul (b (S j)) 1) (nmul (al (S j)) B')).
  all: assert (EA : An = b (S j) * A + al (S j) * A') by reflexivity; assert (EB : Bn = b (S j) * 1 + al (S j) * B') by reflexivity.
  all: pose proof (bb_pos n z Hz (S j)) as Pb; fold (b (S j)) in Pb.
  all: assert (Pa : 0 <= al (S j)) by (apply alpha_nonneg; lia).
  all: assert (PA : 0 < An) by (rewrite EA; nra); assert (PB : 0 < Bn) by (rewrite EB; nra); assert (AB : An <= Bn) by (rewrite EA, EB; nra).
  all: change (nleb (nabs Bn) (nmul (nabs An) cf_small)) with (Rle_bool (Rabs Bn) (Rabs An * (bpow radix2 (-1022) * 1000))).
  all: rewrite Rle_bool_false by (rewrite !Rabs_pos_eq by lra; pose proof tiny_lt; pose proof tiny_pos; nra).
  all: change (ndiv An Bn) with (An / Bn); cbn [negb andb]; change (nltb (nabs (nsub (An / Bn) A)) (nmul (nabs A) tulp)) with (Rlt_bool (Rabs (An / Bn - A)) (Rabs A * u)); rewrite (Rabs_pos_eq A) by lra.
  - (* the last numerator is zero *)
    assert (Z : al (S j) = 0) by (unfold al, alpha; replace (S j) with n by lia; ring).
    assert (ER : An / Bn = A) by (rewrite EA, EB, Z; field; lra). rewrite ER, Rminus_eq_0, Rabs_R0, Rlt_bool_true by nra.
    exists A, A. split; [reflexivity|]. rewrite Rminus_eq_0, Rabs_R0. rewrite Z in Inv. assert (Py : 0 < y j) by (apply yy_pos; auto; lia). assert (X = A) by nra. rewrite Rmin_left, Rmax_left by lra. repeat split; nra.
  - assert (Step : X * (Bn * y (S j) + al (S (S j)) * y (S (S j))) = An * y (S j) + al (S (S j)) * A * y (S (S j))).
    { rewrite EA, EB. pose proof (yy_step n z Hn j ltac:(lia)) as Y. fold (y j) (y (S j)) (y (S (S j))) (b (S j)) (al (S (S j))) in Y. rewrite Y in Inv. nra. }
    assert (Py : 0 < y (S j)) by (apply yy_pos; auto; lia). pose proof (yy_nonneg n z Hn Hz (S (S j))) as Py'. fold (y (S (S j))) in Py'. assert (Pa' : 0 <= al (S (S j))) by (apply alpha_nonneg; lia).
    assert (Br : Rmin A (An / Bn) <= X <= Rmax A (An / Bn)).
    { set (r := An / Bn) in *. assert (Er : An = r * Bn) by (unfold r; field; lra). set (w1 := Bn * y (S j)) in *. set (w2 := al (S (S j)) * y (S (S j))) in *.
      assert (W1 : 0 < w1) by (unfold w1; nra). assert (W2 : 0 <= w2) by (unfold w2; nra). assert (E : X * (w1 + w2) = r * w1 + A * w2) by (rewrite Step, Er; unfold w1, w2; ring).
      pose proof (Rmin_l A r). pose proof (Rmin_r A r). pose proof (Rmax_l A r). pose proof (Rmax_r A r). split; apply Rmult_le_reg_r with (w1 + w2); try lra; rewrite E; nra. }
    destruct (Rlt_bool_spec (Rabs (An / Bn - A)) (A * u)) as [L|L].
    + exists (An / Bn), A. split; [reflexivity|]. split; auto. split; [lra|lra].
    + change (ndiv A Bn) with (A / Bn). change (ndiv 1 Bn) with (1 / Bn). change n1 with 1. change (nadd (INR j + 1) 1) with (INR j + 1 + 1). rewrite <- S_INR.
      apply IH; [lia|lia| | | |].
      * split; [apply Rdiv_lt_0_compat; lra|]. apply Rmult_le_reg_r with Bn; [lra|]. unfold Rdiv. rewrite Rmult_assoc, Rinv_l; lra.
      * split; [apply Rmult_le_pos; [lra|left; apply Rinv_0_lt_compat; lra]|]. apply Rmult_le_compat_r; [left; apply Rinv_0_lt_compat; lra|lra].
      * apply Rdiv_lt_0_compat; lra.
      * apply Rmult_eq_reg_r with Bn; [|lra]. transitivity (X * (Bn * y (S j) + al (S (S j)) * y (S (S j)))); [field; lra|]. rewrite Step. field. lra.
Qed.
Lemma igamc_nop_value fuel : 0 < u < 1 -> (n <= fuel)%nat -> exists r, igamc_nop fuel (INR n) z = Some (Ret r) /\ Rabs (r - X0) <= u / (1 - u) * X0 /\ 0 < X0.
Proof.
  intros Hu Hf. unfold igamc_nop. change (nleb (nadd (INR n) n1) z) with (Rle_bool (INR n + 1) z). change (nltb n0 (INR n)) with (Rlt_bool 0 (INR n)).
  pose proof (le_INR _ _ Hn) as Hn'. change (INR 1) with 1 in Hn'. rewrite Rle_bool_true, Rlt_bool_true by lra. cbn [andb oassert rbind].
  change (nsub (nadd z n1) (INR n)) with (z + 1 - INR n). assert (Eb : z + 1 - INR n = b 0) by (unfold b, bb; change (INR 0) with 0; ring). rewrite Eb. pose proof (bb_pos n z Hz 0) as Pb. fold (b 0%nat) in Pb.
  change (nleb (nabs (b 0%nat)) cf_small) with (Rle_bool (Rabs (b 0%nat)) (bpow radix2 (-1022) * 1000)). rewrite Rabs_pos_eq by lra. rewrite Rle_bool_false by (pose proof tiny_lt; lra).
  change (ndiv n1 (b 0%nat)) with (1 / b 0%nat). change n0 with 0. change n1 with 1. pose proof (z_pos n z Hz) as Pz. assert (Pzn : 0 < z ^ n) by (apply pow_lt; auto).
  assert (PX : 0 < X0) by (apply Rdiv_lt_0_compat; auto; apply yy_pos; auto; lia).
  assert (P1 : 0 < 1 / b 0%nat <= 1). { split; [apply Rdiv_lt_0_compat; lra|]. apply Rmult_le_reg_r with (b 0%nat); [lra|]. unfold Rdiv. rewrite Rmult_assoc, Rinv_l; lra. }
  destruct (cf_value X0 ltac:(lra) (n - 1) 0 fuel (1 / b 0%nat) 0 (1 / b 0%nat)) as (r & C & E & Br & D & PC); [lia|lia|lra|lra|lra| |].
  { apply Rmult_eq_reg_r with (b 0%nat); [|lra]. transitivity (X0 * (b 0%nat * y 0%nat + al 1%nat * y 1%nat)); [field; lra|]. pose proof (yy_top n z Hn Hz) as T. fold (b 0%nat) (y 0%nat) (al 1%nat) (y 1%nat) in T. rewrite <- T. unfold X0. fold (y 0%nat). field. split; lra. }
  change (INR 0) with 0 in E. rewrite Rplus_0_l in E. exists r. split; [exact E|]. split; auto. apply Rabs_def2 in D.
  assert (Q : X0 * u >= (1 - u) * u * C - 0 /\ Rabs (r - X0) <= u * C).
  { unfold Rmin, Rmax in Br. destruct (Rle_dec C r); split; [nra|apply Rabs_le; lra|nra|apply Rabs_le; lra]. }
  destruct Q as (Q1 & Q2). eapply Rle_trans; [exact Q2|]. apply Rmult_le_reg_r with (1 - u); [lra|]. replace (u / (1 - u) * X0 * (1 - u)) with (X0 * u) by (field; lra). lra.
Qed.
End Fraction.
End Prob.
