(** The table of coefficients (C53) and GaussianConditional (C61). *)
From Coq Require Import ZArith QArith Qreals Reals List Lra Lia Psatz Bool.
From Coquelicot Require Import Coquelicot.
From Flocq Require Import Core.Raux Core.Zaux.
From Verif Require Import Base Scalar RLib MiniballModel ProbModel BernoulliSpec ProbSpec ProbProofs ProbProofs3 ProbProofs4 ProbProofs5 ProbProofs6.
Import ListNotations.
Open Scope R_scope.

(** * The Bernoulli numbers as fractions *)
Fixpoint qsum (n : nat) (l : list Q) (k : nat) : Q := match l with [] => 0%Q | x :: l => (inject_Z (binom n k) * x + qsum n l (S k))%Q end.
Fixpoint bq (n : nat) : list Q := match n with O => [1%Q] | S k => let l := bq k in l ++ [Qred (- qsum (k + 2) l 0 / inject_Z (Z.of_nat (k + 2)))] end.
Lemma bq_length n : length (bq n) = S n.
Proof. induction n as [|n IH]; [reflexivity|]. cbn [bq]. rewrite app_length, IH. cbn. lia. Qed.
Lemma bq_nth n k : (k <= n)%nat -> nth k (bq n) 0%Q = nth k (bq k) 0%Q.
Proof. intros L. induction L as [|n L IH]; auto. cbn [bq]. rewrite app_nth1 by (rewrite bq_length; lia). exact IH. Qed.
Lemma Q2R_Z z : Q2R (inject_Z z) = IZR z.
Proof. unfold Q2R, inject_Z. cbn. field. Qed.
Lemma qsum_R n b : forall l k, (forall j, (j < length l)%nat -> b (k + j)%nat = Q2R (nth j l 0%Q)) ->
  sum_below (fun i => IZR (binom n i) * b i) (k + length l) = sum_below (fun i => IZR (binom n i) * b i) k + Q2R (qsum n l k).
Proof.
  induction l as [|x l IH]; intros k Hb.
  - cbn [length qsum]. rewrite Nat.add_0_r. replace (Q2R 0) with 0 by (unfold Q2R; cbn; field). ring.
  - cbn [length qsum]. replace (k + S (length l))%nat with (S k + length l)%nat by lia. rewrite IH. 
    + cbn [sum_below]. rewrite Q2R_plus, Q2R_mult, Q2R_Z. specialize (Hb 0%nat ltac:(cbn; lia)). rewrite Nat.add_0_r in Hb. cbn [nth] in Hb. rewrite Hb. ring.
    + intros j Hj. specialize (Hb (S j) ltac:(cbn; lia)). cbn [nth] in Hb. rewrite <- Hb. f_equal. lia.
Qed.
Lemma binom_over n k : (n < k)%nat -> binom n k = 0%Z.
Proof. revert k. induction n as [|n IH]; intros [|k] H; try lia; auto. cbn [binom]. rewrite !IH by lia. reflexivity. Qed.
Lemma binom_diag n : binom n n = 1%Z.
Proof. induction n as [|n IH]; auto. cbn [binom]. rewrite IH, binom_over by lia. reflexivity. Qed.
Lemma binom_near n : binom (S n) n = Z.of_nat (S n).
Proof.
  induction n as [|n IH]; [reflexivity|]. change (binom (S (S n)) (S n)) with (binom (S n) n + binom (S n) (S n))%Z. rewrite IH, binom_diag. lia.
Qed.
Lemma bernoulli_q b : bernoulli b -> forall n k, (k <= n)%nat -> b k = Q2R (nth k (bq n) 0%Q).
Proof.
  intros (B0 & Bn). induction n as [|n IH]; intros k Hk.
  - replace k with 0%nat by lia. cbn [bq nth]. rewrite B0. unfold Q2R. cbn. field.
  - destruct (Nat.eq_dec k (S n)) as [->|N]; [|cbn [bq]; rewrite app_nth1 by (rewrite bq_length; lia); apply IH; lia].
    pose proof (Bn (S n) ltac:(lia)) as E. replace (S n + 1)%nat with (S (S n)) in E by lia.
    assert (E' : sum_below (fun i => IZR (binom (S (S n)) i) * b i) (S n) + IZR (binom (S (S n)) (S n)) * b (S n) = 0) by exact E.
    pose proof (qsum_R (S (S n)) b (bq n) 0) as Qs. rewrite bq_length in Qs. rewrite Nat.add_0_l in Qs. rewrite Qs in E'; [|intros j Hj; apply IH; lia].
    rewrite binom_near in E'. cbn [sum_below] in E'. cbn [bq]. rewrite app_nth2 by (rewrite bq_length; lia). rewrite bq_length, Nat.sub_diag. cbn [nth].
    rewrite (Qeq_eqR _ _ (Qred_correct _)). replace (n + 2)%nat with (S (S n)) by lia. assert (Pn : 0 < IZR (Z.of_nat (S (S n)))) by (apply IZR_lt; lia).
    rewrite Q2R_div, Q2R_opp, Q2R_Z by (intros Z; apply Qeq_eqR in Z; rewrite Q2R_Z in Z; unfold Q2R in Z; cbn [Qnum Qden] in Z; lra).
    apply Rmult_eq_reg_l with (IZR (Z.of_nat (S (S n)))); [|lra]. field_simplify; [|lra]. lra.
Qed.
Lemma q_frac q a b : b <> 0%Z -> Qeq_bool (q * inject_Z b) (inject_Z a) = true -> Q2R q = IZR a / IZR b.
Proof.
  intros Hb E. apply Qeq_bool_iff, Qeq_eqR in E. rewrite Q2R_mult, !Q2R_Z in E. rewrite <- E. field. now apply not_0_IZR.
Qed.
Lemma table_values b : bernoulli b ->
  b 2%nat = 1 / 6 /\ b 4%nat = -1 / 30 /\ b 6%nat = 1 / 42 /\ b 8%nat = -1 / 30 /\ b 10%nat = 5 / 66 /\ b 12%nat = -691 / 2730 /\
  b 14%nat = 7 / 6 /\ b 16%nat = -3617 / 510 /\ b 18%nat = 43867 / 798 /\ b 20%nat = -174611 / 330 /\ b 22%nat = 854513 / 138.
Proof.
  intros B. pose proof (bernoulli_q b B 22) as V. repeat split; (rewrite V by lia; apply q_frac; [lia|vm_compute; reflexivity]).
Qed.
Lemma bernoulli_exists : bernoulli (fun k => Q2R (nth k (bq k) 0%Q)).
Proof.
  split; [cbn [bq nth]; unfold Q2R; cbn; field|]. intros [|m] Hm; [lia|]. set (b := fun k => Q2R (nth k (bq k) 0%Q)). replace (S m + 1)%nat with (S (S m)) by lia.
  change (sum_below (fun i => IZR (binom (S (S m)) i) * b i) (S m) + IZR (binom (S (S m)) (S m)) * b (S m) = 0).
  pose proof (qsum_R (S (S m)) b (bq m) 0) as Qs. rewrite bq_length, Nat.add_0_l in Qs. rewrite Qs; [|intros j Hj; unfold b; rewrite Nat.add_0_l; symmetry; rewrite (bq_nth m j) by lia; reflexivity]. cbn [sum_below].
  rewrite binom_near. unfold b. cbn [bq]. rewrite app_nth2 by (rewrite bq_length; lia). rewrite bq_length, Nat.sub_diag. cbn [nth]. rewrite (Qeq_eqR _ _ (Qred_correct _)). replace (m + 2)%nat with (S (S m)) by lia. assert (Pn : 0 < IZR (Z.of_nat (S (S m)))) by (apply IZR_lt; lia).
  rewrite Q2R_div, Q2R_opp, Q2R_Z by (intros Z; apply Qeq_eqR in Z; rewrite Q2R_Z in Z; unfold Q2R in Z; cbn [Qnum Qden] in Z; lra). field. lra.
Qed.

(** * The normal distribution *)
Lemma density_continuous mean stddev x : continuous (normal_density mean stddev) x.
Proof. apply (ex_derive_continuous (normal_density mean stddev)). unfold normal_density. auto_derive. auto. Qed.
Lemma normal_tail_exists mean stddev : exists tail, normal_tail mean stddev tail.
Proof.
  assert (I : forall x y, ex_RInt (normal_density mean stddev) x y) by (intros x y; apply (ex_RInt_continuous (V := R_CompleteNormedModule)); intros z _; apply density_continuous).
  exists (fun x => 1 / 2 - RInt (normal_density mean stddev) mean x). split; [rewrite RInt_point; change zero with 0; ring|]. intros x y.
  assert (E : RInt (normal_density mean stddev) mean x + RInt (normal_density mean stddev) x y = RInt (normal_density mean stddev) mean y) by (apply (RInt_Chasles (V := R_CompleteNormedModule)); apply I).
  evar_last; [apply (RInt_correct (V := R_CompleteNormedModule)); apply I|]. lra.
Qed.
Lemma density_half_mass tail d : 0 < d -> normal_tail 0 1 tail -> tail d <= 1 / 2 - d * normal_density 0 1 d.
Proof.
  intros Hd (T0 & T). specialize (T 0 d). rewrite T0 in T.
  assert (C : is_RInt (fun _ => normal_density 0 1 d) 0 d (d * normal_density 0 1 d)) by (evar_last; [apply is_RInt_const|unfold scal; cbn; unfold mult; cbn; ring]).
  assert (L : d * normal_density 0 1 d <= 1 / 2 - tail d); [|lra]. apply (is_RInt_le (fun _ => normal_density 0 1 d) (normal_density 0 1) 0 d); auto; [lra|]. intros x Hx. unfold normal_density, Rdiv. apply Rmult_le_compat_r; [left; apply Rinv_0_lt_compat, Rmult_lt_0_compat; [rewrite Rabs_R1; lra|apply sqrt_lt_R0; pose proof PI_RGT_0; lra]|].
  apply exp_mono. rewrite !Rminus_0_r, Rinv_1, !Rmult_1_r. assert (x ^ 2 <= d ^ 2) by (apply pow_incr; lra). lra.
Qed.
Lemma exp_half : exp (1 / 2) <= 169 / 100.
Proof.
  assert (S : forall x, exp (2 * x) = exp x * exp x) by (intros; rewrite <- exp_plus; f_equal; ring).
  assert (B : forall p q x y, 0 < p -> y = 2 * x -> q <= p * p -> p <= exp x -> q <= exp y) by (intros p q x y Hp -> Hq Hx; rewrite S; eapply Rle_trans; [exact Hq|apply Rmult_le_compat; lra]).
  assert (Y0 : 127 / 128 <= exp (- (1 / 128))) by (pose proof (exp_ineq1_le (- (1 / 128))); lra).
  assert (Y1 : 984 / 1000 <= exp (- (1 / 64))) by (eapply B; [| | |exact Y0]; lra).
  assert (Y2 : 968 / 1000 <= exp (- (1 / 32))) by (eapply B; [| | |exact Y1]; lra).
  assert (Y3 : 937 / 1000 <= exp (- (1 / 16))) by (eapply B; [| | |exact Y2]; lra).
  assert (Y4 : 8777 / 10000 <= exp (- (1 / 8))) by (eapply B; [| | |exact Y3]; lra).
  assert (Y5 : 7700 / 10000 <= exp (- (1 / 4))) by (eapply B; [| | |exact Y4]; lra).
  assert (Y6 : 592 / 1000 <= exp (- (1 / 2))) by (eapply B; [| | |exact Y5]; lra). rewrite exp_Ropp in Y6.
  assert (Z : 592 / 1000 <= / exp (1 / 2)) by lra. pose proof (exp_pos (1 / 2)). apply Rinv_le_contravar in Z; [|lra]. rewrite Rinv_inv in Z. lra.
Qed.

Section Prob.
Context (eps : Epsilon).
Variable u : R.
#[local] Hint Extern 0 (Num R) => exact (Rnum eps) : typeclass_instances.
#[local] Hint Extern 0 (Trans R) => exact (Rtrans u) : typeclass_instances.

(** at the mean the result is right *)
Lemma gaussian_conditional_mean mean stddev fuel : 0 < u -> stddev <> 0 -> gaussian_conditional fuel mean stddev mean = Some (Ret (normal_density mean stddev mean / (1 / 2))).
Proof.
  intros Hu Hs. unfold gaussian_conditional. change (neqb stddev n0) with (Req_bool stddev 0). rewrite Req_bool_false by auto. cbn [negb oassert rbind].
  change (ndiv (nsub mean mean) stddev) with ((mean - mean) / stddev). replace ((mean - mean) / stddev) with 0 by (field; auto). change (ndiv (nmul 0 0) n2) with (0 * 0 / 2). replace (0 * 0 / 2) with 0 by field.
  change (nltb 0 (nadd nsqrt3 (nmul (nofZ 10) tulp))) with (Rlt_bool 0 (sqrt 3 + 10 * u)). rewrite Rlt_bool_true by (pose proof (sqrt_pos 3); lra). unfold igamc. cbn [igam_]. change nhalf with (1 / 2). change (nleb n0 0) with (Rle_bool 0 0). change (nleb n0 (1 / 2)) with (Rle_bool 0 (1 / 2)). rewrite !Rle_bool_true by lra. cbn [andb oassert rbind].
  change (neqb (1 / 2) n0) with (Req_bool (1 / 2) 0). change (neqb 0 n0) with (Req_bool 0 0). rewrite Req_bool_false, Req_bool_true by lra. cbn [rbind ret]. unfold ret. cbn [rbind]. change (nltb n0 0) with (Rlt_bool 0 0). rewrite Rlt_bool_false by lra.
  rewrite (gaussian_value eps u) by auto. cbn [rbind]. change (nsub n1 (ndiv n1 n2)) with (1 - 1 / 2). replace (1 - 1 / 2) with (1 / 2) by lra. reflexivity.
Qed.
(** a tenth of a standard deviation above it the normalization is off *)
Lemma gaussian_conditional_off : 0 < u < 1 -> exists N, forall fuel, (N <= fuel)%nat -> exists h, gaussian_conditional fuel 0 1 (1 / 10) = Some (Ret h) /\
  forall tail, normal_tail 0 1 tail -> 0 < h /\ h * tail (1 / 10) <= 995 / 1000 * normal_density 0 1 (1 / 10).
Proof.
  intros Hu. set (z := 1 / 10 * (1 / 10) / 2). assert (Ez : z = 1 / 200) by (unfold z; lra).
  destruct (igam_nop_value eps u (1 / 2) z Hu ltac:(lra) ltac:(lra)) as (N & HN). exists N. intros fuel Hf. destruct (HN fuel Hf) as (K & HK & HB & E).
  set (P := ps (1 / 2) z K * exp (1 / 2 * (ln z + 1) - z - ln PI / 2)). exists (normal_density 0 1 (1 / 10) / ((1 - P) / 2)). split.
  - unfold gaussian_conditional. change (neqb 1 n0) with (Req_bool 1 0). rewrite Req_bool_false by lra. cbn [negb oassert rbind].
    change (ndiv (nsub (1 / 10) 0) 1) with ((1 / 10 - 0) / 1). replace ((1 / 10 - 0) / 1) with (1 / 10) by field. change (ndiv (nmul (1 / 10) (1 / 10)) n2) with z.
    change (nltb (1 / 10) (nadd nsqrt3 (nmul (nofZ 10) tulp))) with (Rlt_bool (1 / 10) (sqrt 3 + 10 * u)). assert (1 <= sqrt 3) by (rewrite <- sqrt_1; apply sqrt_le_1; lra). rewrite Rlt_bool_true by lra.
    unfold igamc. cbn [igam_]. change nhalf with (1 / 2). change (nleb n0 z) with (Rle_bool 0 z). change (nleb n0 (1 / 2)) with (Rle_bool 0 (1 / 2)). rewrite !Rle_bool_true by lra. cbn [andb oassert rbind].
    change (neqb (1 / 2) n0) with (Req_bool (1 / 2) 0). change (neqb z n0) with (Req_bool z 0). rewrite !Req_bool_false by lra. change (nltb z (nadd (1 / 2) n1)) with (Rlt_bool z (1 / 2 + 1)). change (nltb (nadd (1 / 2) n1) z) with (Rlt_bool (1 / 2 + 1) z). rewrite Rlt_bool_true, Rlt_bool_false by lra.
    assert (LG : log_gamma (1 / 2) = Some (Ret (ln PI / 2))).
    { unfold log_gamma. cbn [log_gamma_]. change nhalf with (1 / 2). change (nltb (1 / 2) (1 / 2)) with (Rlt_bool (1 / 2) (1 / 2)). change (neqb (1 / 2) (1 / 2)) with (Req_bool (1 / 2) (1 / 2)). rewrite Rlt_bool_false, Req_bool_true by lra. reflexivity. }
    rewrite LG. cbn [rbind]. rewrite E. cbn [rbind ret]. unfold ret. cbn [rbind]. change (nltb n0 (1 / 10)) with (Rlt_bool 0 (1 / 10)). rewrite Rlt_bool_true by lra. rewrite (gaussian_value eps u) by lra. cbn [rbind]. reflexivity.
  - intros tail T. pose proof (density_half_mass tail (1 / 10) ltac:(lra) T) as Q. set (phi := normal_density 0 1 (1 / 10)) in *. pose proof PI_RGT_0 as Pp.
    assert (Ephi : phi = exp (- z) / sqrt (2 * PI)) by (unfold phi, normal_density; rewrite Rabs_R1, Rmult_1_l; f_equal; f_equal; unfold z; field).
    assert (Pphi : 0 < phi) by (rewrite Ephi; apply Rdiv_lt_0_compat; [apply exp_pos|apply sqrt_lt_R0; lra]).
    assert (EP : P = ps (1 / 2) z K * exp (1 / 2) * (1 / 10 * phi)).
    { unfold P. rewrite Ephi. replace (1 / 2 * (ln z + 1) - z - ln PI / 2) with (1 / 2 + (- z) + 1 / 2 * ln z + - (1 / 2 * ln PI)) by lra. rewrite !exp_plus, (exp_Ropp (1 / 2 * ln PI)). fold (Rpower z (1 / 2)) (Rpower PI (1 / 2)). replace (1 / 2) with (/ 2) by lra. rewrite !Rpower_sqrt by lra.
      assert (Es : sqrt z = 1 / 10 / sqrt 2) by (unfold z; replace (1 / 10 * (1 / 10) / 2) with ((1 / 10) ^ 2 / 2) by field; rewrite sqrt_div_alt by lra; rewrite sqrt_pow2 by lra; reflexivity). rewrite Es, sqrt_mult by lra.
      pose proof (sqrt_lt_R0 2 ltac:(lra)). pose proof (sqrt_lt_R0 PI Pp). field. split; lra. }
    assert (HS : ps (1 / 2) z K <= 302 / 300).
    { assert (G : forall k, ps (1 / 2) z (S k) + pc (1 / 2) z (S k) * (1 / 299) <= 1 + 300 / 299 * (1 / 300) /\ True). 
      { induction k as [|k [IH _]]; split; auto.
        - cbn [ps pc INR]. rewrite Ez. lra.
        - eapply Rle_trans; [|exact IH]. change (ps (1 / 2) z (S (S k))) with (ps (1 / 2) z (S k) + pc (1 / 2) z (S (S k))). change (pc (1 / 2) z (S (S k))) with (pc (1 / 2) z (S k) * (z / (1 / 2 + INR (S k) + 1))). pose proof (pc_pos (1 / 2) z ltac:(lra) ltac:(lra) (S k)) as PC. pose proof (pos_INR (S k)).
          assert (R1 : z / (1 / 2 + INR (S k) + 1) <= 1 / 300). { rewrite Ez. unfold Rdiv. assert (/ (1 * / 2 + INR (S k) + 1) <= / (3 / 2)) by (apply Rinv_le_contravar; lra). lra. } nra. }
      destruct K as [|K]; [lia|]. destruct (G K) as (G' & _). pose proof (pc_pos (1 / 2) z ltac:(lra) ltac:(lra) (S K)). lra. }
    pose proof exp_half as Eh. pose proof (exp_pos (1 / 2)) as Ph. pose proof (ps_ge (1 / 2) z ltac:(lra) ltac:(lra) K) as PS.
    assert (HP : 0 < P <= 1702 / 1000 * (1 / 10 * phi)). { rewrite EP. split; [apply Rmult_lt_0_compat; nra|]. apply Rmult_le_compat_r; [lra|]. nra. }
    assert (Bphi : 3 / 10 <= phi <= 1 / 2).
    { rewrite Ephi. assert (S2 : 2 <= sqrt (2 * PI) <= 3). { pose proof PI_4. pose proof PI2_3_2. assert (A2 : sqrt (2 ^ 2) <= sqrt (2 * PI)) by (apply sqrt_le_1; lra). assert (A3 : sqrt (2 * PI) <= sqrt (3 ^ 2)) by (apply sqrt_le_1; lra). rewrite sqrt_pow2 in A2, A3 by lra. lra. }
      pose proof (exp_ineq1_le (- z)). assert (exp (- z) <= 1) by (rewrite <- exp_0; apply exp_mono; lra). split; [apply Rmult_le_reg_r with (sqrt (2 * PI)); [lra|]; unfold Rdiv at 2; rewrite Rmult_assoc, Rinv_l by lra; lra|apply Rmult_le_reg_r with (sqrt (2 * PI)); [lra|]; unfold Rdiv at 1; rewrite Rmult_assoc, Rinv_l by lra; lra]. }
    assert (Pn : 0 < (1 - P) / 2) by lra. split; [apply Rdiv_lt_0_compat; lra|].
    apply Rmult_le_reg_r with ((1 - P) / 2); auto. replace (phi / ((1 - P) / 2) * tail (1 / 10) * ((1 - P) / 2)) with (phi * tail (1 / 10)) by (field; lra).
    rewrite (Rmult_comm (995 / 1000)), Rmult_assoc. apply Rmult_le_compat_l; [lra|]. lra.
Qed.
End Prob.
