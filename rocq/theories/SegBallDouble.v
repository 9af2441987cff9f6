(** Segment against ball in doubles: the point of the segment that is tested is nearly the nearest one, and the
    distance to it is computed to within a multiple of the tolerance. *)
From Coq Require Import ZArith NArith Reals Bool SpecFloat Lia Lra List Psatz.
From Flocq Require Import Core IEEE754.BinarySingleNaN.
From Verif Require Import Base Scalar OrdLib RLib B64Lib B64Ops ConstSpec RoundLib RoundProofs RSpec ConstModel VecModel VecSpec VecProofs AngleProofs ShapeProofs3 BallProofs RoundProofs2 RoundProofs3 RoundProofs4 BallDouble SegProofs3 SegDouble2.
From Verif Require Import RoundSpec ShapeModel IntersectModel ShapeSpec.
Import ListNotations.
Open Scope R_scope.

Lemma sum_close n f g k : (forall i, (i < n)%nat -> Rabs (f i - g i) <= k) -> Rabs (Rsum n f - Rsum n g) <= INR n * k.
Proof. intros H. rewrite <- Rsum_minus. eapply Rle_trans; [apply Rsum_abs|]. apply Rsum_le_const. exact H. Qed.
Lemma prod_close a b x y da db A Y : Rabs (a - x) <= da -> Rabs (b - y) <= db -> Rabs b <= A -> Rabs x <= Y -> Rabs (a * b - x * y) <= da * A + Y * db.
Proof.
  intros Ha Hb HA HY. replace (a * b - x * y) with ((a - x) * b + x * (b - y)) by ring. eapply Rle_trans; [apply Rabs_triang|]. rewrite !Rabs_mult.
  apply Rplus_le_compat; apply Rmult_le_compat; auto using Rabs_pos.
Qed.
Lemma prod_size a b A B : Rabs a <= A -> Rabs b <= B -> Rabs (a * b) <= A * B.
Proof. intros. rewrite Rabs_mult. apply Rmult_le_compat; auto using Rabs_pos. Qed.
(** The parabola that gives the squared distance along the segment: where its slope is small it is near its minimum. *)
Lemma near_min C P N q t E : 0 <= E -> 0 <= N -> 0 <= q <= 1 -> 0 <= t <= 1 -> (q = 0 /\ P <= E) \/ (q = 1 /\ N - P <= E) \/ Rabs (q * N - P) <= E ->
  C - 2 * q * P + q * q * N <= C - 2 * t * P + t * t * N + 2 * E.
Proof.
  intros E0 N0 Q T H. assert (S : 0 <= (q - t) * (q - t) * N) by (apply Rmult_le_pos; [apply Rle_0_sqr|lra]). assert (G : (q * N - P) * (q - t) <= E); [|lra].
  destruct H as [[-> H]|[[-> H]|H]].
  - assert (t * P <= E); [|lra]. destruct (Rle_dec P 0); [assert (0 <= t * - P) by (apply Rmult_le_pos; lra); lra|]. assert (t * P <= 1 * P) by (apply Rmult_le_compat_r; lra). lra.
  - assert ((1 - t) * (N - P) <= E); [|lra]. destruct (Rle_dec (N - P) 0); [assert (0 <= (1 - t) * - (N - P)) by (apply Rmult_le_pos; lra); lra|]. assert ((1 - t) * (N - P) <= 1 * (N - P)) by (apply Rmult_le_compat_r; lra). lra.
  - eapply Rle_trans; [apply Rle_abs|]. rewrite Rabs_mult. rewrite <- (Rmult_1_r E). apply Rmult_le_compat; auto using Rabs_pos. apply Rabs_le. lra.
Qed.

Lemma eta_u : eta64 <= u64 / 10000.
Proof. apply (h_small1 0). lia. Qed.
Section V.
Variable m : libm.
Variable n : nat.
Variable B : R.
Hypothesis Hn : (0 < n <= 50)%nat.
Hypothesis HB : 1 <= B <= bpow radix2 400.
Definition bounded (p : coords spec_float) : Prop := forall i, (i < n)%nat -> Rabs (rco p i) <= B.
Let W := u64 * B.
Lemma W_small : 0 < W /\ W <= B / 10 ^ 12 /\ u64 <= W.
Proof. pose proof u64_pos. pose proof u_tiny. unfold W. split; [apply Rmult_lt_0_compat; lra|]. split; [unfold Rdiv; rewrite (Rmult_comm B); apply Rmult_le_compat_r; lra|]. rewrite <- (Rmult_1_r u64) at 1. apply Rmult_le_compat_l; lra. Qed.
Lemma rnd_near x k : 0 <= k -> Rabs x <= k * B -> Rabs (rnd x - x) <= (k + / 1000) * W.
Proof.
  intros K X. eapply Rle_trans; [apply rnd_err|]. pose proof eta_u. pose proof W_small. pose proof u64_pos. assert (u64 * Rabs x <= u64 * (k * B)) by (apply Rmult_le_compat_l; lra). replace (u64 * (k * B)) with (k * W) in * by (unfold W; ring). lra.
Qed.
Lemma B_big k : 0 <= k <= 10 -> k * B <= big.
Proof.
  intros K. apply Rle_trans with (10 * B); [apply Rmult_le_compat_r; lra|]. apply Rle_trans with (bpow radix2 4 * bpow radix2 400); [apply Rmult_le_compat; try lra; change (bpow radix2 4) with 16; lra|]. rewrite <- bpow_plus. apply bpow_le. lia.
Qed.
Lemma sub_close p q x y dp dq kp kq : doubles n p -> doubles n q -> 0 <= kp <= 5 -> 0 <= kq <= 5 -> (forall i, (i < n)%nat -> Rabs (rco p i) <= kp * B) -> (forall i, (i < n)%nat -> Rabs (rco q i) <= kq * B) ->
  (forall i, (i < n)%nat -> Rabs (rco p i - x i) <= dp) -> (forall i, (i < n)%nat -> Rabs (rco q i - y i) <= dq) ->
  let v := vec_sub (H := B64 m) n p q in doubles n v /\ forall i, (i < n)%nat -> Rabs (rco v i - (x i - y i)) <= dp + dq + (kp + kq + / 1000) * W /\ Rabs (rco v i) <= (kp + kq + / 1000) * B.
Proof.
  intros Dp Dq Kp Kq Bp Bq Cp Cq v. assert (S : forall i, (i < n)%nat -> Rabs (rco p i - rco q i) <= (kp + kq) * B). { intros i Hi. eapply Rle_trans; [apply Rabs_triang|]. rewrite Rabs_Ropp. specialize (Bp i Hi). specialize (Bq i Hi). lra. }
  destruct (sub_round m n p q Dp Dq) as [Dv Ev]. { intros i Hi. eapply Rle_trans; [apply S, Hi|]. apply B_big. lra. }
  split; [exact Dv|]. intros i Hi. specialize (Ev i Hi). fold v in Ev. change (rco v i = rnd (rco p i - rco q i)) in Ev. rewrite Ev. specialize (S i Hi). specialize (Cp i Hi). specialize (Cq i Hi). pose proof (rnd_near _ (kp + kq) ltac:(lra) S) as R. pose proof W_small as (W0 & W1 & _).
  assert ((kp + kq + / 1000) * W <= B / 10 ^ 10). { apply Rle_trans with (11 * W); [apply Rmult_le_compat_r; lra|]. lra. }
  split; [|]; apply Rabs_le; apply Rabs_le_inv in S, Cp, Cq, R; split; lra.
Qed.
Lemma diff_close p q : doubles n p -> doubles n q -> bounded p -> bounded q ->
  let v := vec_sub (H := B64 m) n p q in doubles n v /\ forall i, (i < n)%nat -> Rabs (rco v i - (rco p i - rco q i)) <= 2.1 * W /\ Rabs (rco v i) <= 2.01 * B /\ Rabs (rco p i - rco q i) <= 2 * B.
Proof.
  intros Dp Dq Bp Bq v. pose proof W_small. destruct (sub_close p q (rco p) (rco q) 0 0 1 1 Dp Dq ltac:(lra) ltac:(lra)) as [Dv Ev]; [intros i Hi; specialize (Bp i Hi); lra|intros i Hi; specialize (Bq i Hi); lra|intros i Hi; rewrite Rminus_diag_eq, Rabs_R0 by reflexivity; lra|intros i Hi; rewrite Rminus_diag_eq, Rabs_R0 by reflexivity; lra|].
  split; [exact Dv|]. intros i Hi. destruct (Ev i Hi) as [E1 E2]. fold v in E1, E2. split; [lra|]. split; [lra|]. specialize (Bp i Hi). specialize (Bq i Hi). apply Rabs_le_inv in Bp, Bq. apply Rabs_le. lra.
Qed.
Let S := INR n * (B * B).
Lemma n_small : (Z.of_nat n <= 2 ^ 26)%Z /\ 1 <= INR n <= 50.
Proof. split; [lia|]. split; [change 1 with (INR 1); apply le_INR; lia|]. replace 50 with (INR 50) by (cbn; lra). apply le_INR. lia. Qed.
Lemma S_facts : 1 <= B * B /\ B * B <= S /\ B <= S /\ 1 <= S /\ INR n <= S /\ 1000 * S <= big / 2 /\ INR n * eta64 <= u64 * S / 10000.
Proof.
  pose proof n_small as [_ [N1 N2]]. destruct HB as [B1 B2]. assert (BB : B <= B * B) by (rewrite <- (Rmult_1_r B) at 1; apply Rmult_le_compat_l; lra). assert (T : B * B <= S) by (unfold S; rewrite <- (Rmult_1_l (B * B)) at 1; apply Rmult_le_compat_r; lra).
  assert (NS : INR n <= S) by (unfold S; rewrite <- (Rmult_1_r (INR n)) at 1; apply Rmult_le_compat_l; lra).
  split; [lra|]. split; [exact T|]. split; [lra|]. split; [lra|]. split; [exact NS|]. split.
  - assert (H : B * B <= bpow radix2 800) by (change 800%Z with (400 + 400)%Z; rewrite bpow_plus; apply Rmult_le_compat; lra). assert (S <= 50 * bpow radix2 800) by (unfold S; apply Rmult_le_compat; lra).
    unfold big. change 1023%Z with (1 + (222 + 800))%Z. rewrite !bpow_plus. change (bpow radix2 1) with 2. assert (50000 <= bpow radix2 222). { apply Rle_trans with (bpow radix2 16); [unfold bpow; change (Z.pow_pos radix2 16) with 65536%Z; lra|apply bpow_le; lia]. } pose proof (bpow_gt_0 radix2 800). assert (50000 * bpow radix2 800 <= bpow radix2 222 * bpow radix2 800) by (apply Rmult_le_compat_r; lra). lra.
  - pose proof eta_u. pose proof u64_pos. assert (INR n * eta64 <= S * (u64 / 10000)) by (apply Rmult_le_compat; try lra; pose proof eta64_pos; lra). lra.
Qed.
(** inner products of differences *)
Lemma inner_close a b x y : doubles n a -> doubles n b ->
  (forall i, (i < n)%nat -> Rabs (rco a i - x i) <= 2.1 * W /\ Rabs (rco a i) <= 2.01 * B /\ Rabs (x i) <= 2 * B) -> (forall i, (i < n)%nat -> Rabs (rco b i - y i) <= 2.1 * W /\ Rabs (rco b i) <= 2.01 * B /\ Rabs (y i) <= 2 * B) ->
  Rabs (inner n (rco a) (rco b) - inner n x y) <= 8.5 * (u64 * S) /\ Rsum n (fun i => Rabs (rco a i * rco b i)) <= 4.05 * S.
Proof.
  intros Da Db Ca Cb. pose proof n_small as [_ [N1 N2]]. pose proof u64_pos. split.
  - replace (8.5 * (u64 * S)) with (INR n * (8.5 * (W * B))) by (unfold S, W; ring). apply sum_close. intros i Hi. destruct (Ca i Hi) as (A1 & A2 & A3). destruct (Cb i Hi) as (C1 & C2 & C3).
    eapply Rle_trans; [exact (prod_close _ _ _ _ _ _ _ _ A1 C1 C2 A3)|]. pose proof W_small as (W0 & _). assert (0 < W * B) by (apply Rmult_lt_0_compat; lra). lra.
  - unfold S. rewrite Rmult_comm. rewrite (Rmult_assoc (INR n)). apply Rsum_le_const. intros i Hi. destruct (Ca i Hi) as (A1 & A2 & A3). destruct (Cb i Hi) as (C1 & C2 & C3). eapply Rle_trans; [exact (prod_size _ _ _ _ A2 C2)|]. assert (0 < B * B) by (apply Rmult_lt_0_compat; lra). lra.
Qed.
Lemma eps60 : lib_eps = 60 * u64.
Proof. rewrite <- eps_u, eps_val. reflexivity. Qed.
Lemma uS : 0 < u64 * S.
Proof. pose proof u64_pos. pose proof S_facts. apply Rmult_lt_0_compat; lra. Qed.
Lemma NuS K : 0 <= K -> (INR n + 2) * u64 * (K * S) + 2 * INR n * eta64 <= (52 * K + / 1000) * (u64 * S).
Proof.
  intros HK. pose proof n_small as [_ [N1 N2]]. pose proof uS. pose proof S_facts as (_ & _ & _ & _ & _ & _ & F). assert (0 <= K * (u64 * S)) by (apply Rmult_le_pos; lra). assert ((INR n + 2) * (K * (u64 * S)) <= 52 * (K * (u64 * S))) by (apply Rmult_le_compat_r; lra). lra.
Qed.
Lemma dot_close a b x y : doubles n a -> doubles n b ->
  (forall i, (i < n)%nat -> Rabs (rco a i - x i) <= 2.1 * W /\ Rabs (rco a i) <= 2.01 * B /\ Rabs (x i) <= 2 * B) -> (forall i, (i < n)%nat -> Rabs (rco b i - y i) <= 2.1 * W /\ Rabs (rco b i) <= 2.01 * B /\ Rabs (y i) <= 2 * B) ->
  fl (dot (H := B64 m) n a b) /\ Rabs (val (dot (H := B64 m) n a b) - inner n x y) <= 8 * (lib_eps * S).
Proof.
  intros Da Db Ca Cb. destruct (inner_close a b x y Da Db Ca Cb) as [I1 I2]. pose proof S_facts as (F1 & F2 & F3 & F4 & F5 & F6 & F7). pose proof n_small as [Ln _]. pose proof uS. pose proof u64_pos. pose proof u_tiny. pose proof eta_u.
  destruct (dot_ok m n a b Ln Da Db) as (Fd & s & Es & Cl); [lra|]. split; [exact Fd|]. cbv zeta in Cl.
  assert (Q : Rabs (s - inner n (rco a) (rco b)) <= 211 * (u64 * S)). { eapply Rle_trans; [exact Es|]. eapply Rle_trans; [|eapply Rle_trans; [apply (NuS 4.05); lra|]]; [|lra]. apply Rplus_le_compat_r. apply Rmult_le_compat_l; [apply Rmult_le_pos; pose proof (pos_INR n); lra|exact I2]. }
  rewrite eps60. apply Rabs_le_inv in Q, I1. destruct Cl as [E|[E Cl]]; rewrite E; [apply Rabs_le; split; lra|].
  specialize (Cl (2.01 * B) (2.01 * B) (fun i Hi => proj1 (proj2 (Ca i Hi))) (fun i Hi => proj1 (proj2 (Cb i Hi)))). rewrite Rmin_left in Cl by lra. rewrite epsR_lib, eps60 in Cl.
  assert (u64 * B <= u64 * S) by (apply Rmult_le_compat_l; lra). assert (u64 * (u64 * B) <= u64 * B / 1000) by (unfold Rdiv; rewrite (Rmult_comm (u64 * B)); apply Rmult_le_compat_r; [apply Rmult_le_pos; lra|lra]). assert (u64 <= u64 * S) by (rewrite <- (Rmult_1_r u64) at 1; apply Rmult_le_compat_l; lra).
  assert (Sb : Rabs s <= 243 * (u64 * S)) by lra. apply Rabs_le_inv in Sb. apply Rabs_le. split; lra.
Qed.
Lemma sqr_close a x : doubles n a -> (forall i, (i < n)%nat -> Rabs (rco a i - x i) <= 2.1 * W /\ Rabs (rco a i) <= 2.01 * B /\ Rabs (x i) <= 2 * B) ->
  fl (sqr_mag (H := B64 m) n a) /\ Rabs (val (sqr_mag (H := B64 m) n a) - norm2 n x) <= 4 * (lib_eps * S) /\ 0 <= val (sqr_mag (H := B64 m) n a) <= 4.1 * S.
Proof.
  intros Da Ca. destruct (inner_close a a x x Da Da Ca Ca) as [I1 I2]. pose proof S_facts as (F1 & F2 & F3 & F4 & F5 & F6 & F7). pose proof n_small as [Ln _]. pose proof uS. pose proof u64_pos. pose proof u_tiny. rewrite norm2_abs in I2.
  destruct (sqr_mag_ok m n a Ln Da) as (Fd & Pd & Es); [lra|]. split; [exact Fd|].
  assert (Q : Rabs (val (sqr_mag (H := B64 m) n a) - norm2 n (rco a)) <= 211 * (u64 * S)). { eapply Rle_trans; [exact Es|]. eapply Rle_trans; [|eapply Rle_trans; [apply (NuS 4.05); lra|]]; [|lra]. apply Rplus_le_compat_r. apply Rmult_le_compat_l; [apply Rmult_le_pos; pose proof (pos_INR n); lra|exact I2]. }
  assert (U : u64 * S <= S / 10 ^ 12) by (unfold Rdiv; rewrite (Rmult_comm S); apply Rmult_le_compat_r; lra). fold (norm2 n (rco a)) (norm2 n x) in I1.
  rewrite eps60. apply Rabs_le_inv in Q, I1. split; [apply Rabs_le; split; lra|]. split; [exact Pd|lra].
Qed.
(** the part across the line *)
Lemma perp_close a o x y q : doubles n a -> doubles n o -> fl q -> 0 <= val q <= 1 ->
  (forall i, (i < n)%nat -> Rabs (rco a i - x i) <= 2.1 * W /\ Rabs (rco a i) <= 2.01 * B /\ Rabs (x i) <= 2 * B) -> (forall i, (i < n)%nat -> Rabs (rco o i - y i) <= 2.1 * W /\ Rabs (rco o i) <= 2.01 * B /\ Rabs (y i) <= 2 * B) ->
  let v := vec_sub (H := B64 m) n o (vec_scale (H := B64 m) n a q) in
  fl (sqr_mag (H := B64 m) n v) /\ Rabs (val (sqr_mag (H := B64 m) n v) - norm2 n (fun i => y i - val q * x i)) <= 17 * (lib_eps * S).
Proof.
  intros Da Do Fq Q Ca Co v. pose proof S_facts as (F1 & F2 & F3 & F4 & F5 & F6 & F7). pose proof n_small as [Ln _]. pose proof uS. pose proof u64_pos. pose proof u_tiny. pose proof W_small as (W0 & W1 & _).
  assert (M : forall i, (i < n)%nat -> Rabs (rco a i * val q) <= 2.01 * B). { intros i Hi. rewrite <- (Rmult_1_r (2.01 * B)). apply prod_size; [apply Ca, Hi|apply Rabs_le; lra]. }
  destruct (scale_round m n a q Da Fq) as [Dw Ew]. { intros i Hi. eapply Rle_trans; [apply M, Hi|]. apply B_big. lra. }
  set (w := vec_scale (H := B64 m) n a q) in *.
  assert (Cw : forall i, (i < n)%nat -> Rabs (rco w i - val q * x i) <= 4.2 * W /\ Rabs (rco w i) <= 2.02 * B).
  { intros i Hi. specialize (Ew i Hi). change (rco w i = rnd (rco a i * val q)) in Ew. rewrite Ew. pose proof (rnd_near _ 2.01 ltac:(lra) (M i Hi)) as R. destruct (Ca i Hi) as (A1 & A2 & A3). specialize (M i Hi).
    assert (T : Rabs (rco a i * val q - val q * x i) <= 2.1 * W). { replace (rco a i * val q - val q * x i) with ((rco a i - x i) * val q) by ring. rewrite <- (Rmult_1_r (2.1 * W)). apply prod_size; [exact A1|apply Rabs_le; lra]. }
    apply Rabs_le_inv in R, T, M. split; apply Rabs_le; split; lra. }
  destruct (sub_close o w y (fun i => val q * x i) (2.1 * W) (4.2 * W) 2.01 2.02 Do Dw ltac:(lra) ltac:(lra)) as [Dv Ev]; [intros; apply Co; auto|intros; apply Cw; auto|intros; apply Co; auto|intros; apply Cw; auto|]. fold v in Dv, Ev. cbv beta in Ev.
  assert (Cv : forall i, (i < n)%nat -> Rabs (rco v i - (y i - val q * x i)) <= 10.4 * W /\ Rabs (rco v i) <= 4.04 * B /\ Rabs (y i - val q * x i) <= 4.05 * B).
  { intros i Hi. destruct (Ev i Hi) as [E1 E2]. split; [lra|]. split; [lra|]. apply Rabs_le_inv in E1, E2. apply Rabs_le. split; lra. }
  assert (I1 : Rabs (norm2 n (rco v) - norm2 n (fun i => y i - val q * x i)) <= 85 * (u64 * S)).
  { replace (85 * (u64 * S)) with (INR n * (85 * (W * B))) by (unfold S, W; ring). apply sum_close. intros i Hi. destruct (Cv i Hi) as (A1 & A2 & A3).
    eapply Rle_trans; [exact (prod_close _ _ _ _ _ _ _ _ A1 A1 A2 A3)|]. assert (0 < W * B) by (apply Rmult_lt_0_compat; lra). lra. }
  assert (I2 : norm2 n (rco v) <= 16.5 * S).
  { rewrite <- norm2_abs. unfold S. rewrite Rmult_comm. rewrite (Rmult_assoc (INR n)). apply Rsum_le_const. intros i Hi. destruct (Cv i Hi) as (A1 & A2 & A3). eapply Rle_trans; [exact (prod_size _ _ _ _ A2 A2)|]. assert (0 < B * B) by (apply Rmult_lt_0_compat; lra). lra. }
  destruct (sqr_mag_ok m n v Ln Dv) as (Fd & Pd & Es); [lra|]. split; [exact Fd|].
  assert (R : Rabs (val (sqr_mag (H := B64 m) n v) - norm2 n (rco v)) <= 859 * (u64 * S)). { eapply Rle_trans; [exact Es|]. eapply Rle_trans; [|eapply Rle_trans; [apply (NuS 16.5); lra|]]; [|lra]. apply Rplus_le_compat_r. apply Rmult_le_compat_l; [apply Rmult_le_pos; pose proof (pos_INR n); lra|exact I2]. }
  rewrite eps60. apply Rabs_le_inv in R, I1. apply Rabs_le; split; lra.
Qed.

Variables (s : segment spec_float) (b : ball spec_float).
Hypothesis D1 : doubles n (end1 s).
Hypothesis D2 : doubles n (end2 s).
Hypothesis Dc : doubles n (center b).
Hypothesis B1 : bounded (end1 s).
Hypothesis B2 : bounded (end2 s).
Hypothesis Bc : bounded (center b).
Hypothesis Fr : finite_double (radius b).
Hypothesis R1 : bpow radix2 (-495) <= val (radius b).
Hypothesis R2 : val (radius b) <= bpow radix2 500.
Let X i := rco (end2 s) i - rco (end1 s) i.
Let Y i := rco (center b) i - rco (end1 s) i.
Let pos t i := (1 - t) * rco (end1 s) i + t * rco (end2 s) i.
Let rr := val (radius b) * val (radius b).
Lemma pos_dist t : dist2 n (rco (center b)) (pos t) = norm2 n Y - 2 * t * inner n X Y + t * t * norm2 n X.
Proof.
  unfold dist2. unfold norm2. rewrite (inner_ext n _ _ (fun i => Y i - t * X i) (fun i => Y i - t * X i)) by (intros i Hi; unfold X, Y, pos; ring).
  pose proof (norm2_minus n Y (fun i => t * X i)) as Q. unfold norm2 in Q. rewrite Q. rewrite inner_scal_r. rewrite inner_scal_l, inner_scal_r. rewrite (inner_comm n Y X). ring.
Qed.
Lemma dist_big p : bounded p -> dist2 n (rco (center b)) (rco p) <= bpow radix2 1022.
Proof.
  intros Bp. pose proof S_facts as (F1 & F2 & F3 & F4 & F5 & F6 & F7). assert (dist2 n (rco (center b)) (rco p) <= INR n * (4 * (B * B))).
  { unfold dist2, norm2, inner. apply Rsum_le_const. intros i Hi. eapply Rle_trans; [apply Rle_abs|]. assert (H : Rabs (rco (center b) i - rco p i) <= 2 * B) by (specialize (Bp i Hi); pose proof (Bc i Hi) as Q; apply Rabs_le_inv in Bp, Q; apply Rabs_le; lra). eapply Rle_trans; [exact (prod_size _ _ _ _ H H)|]. lra. }
  change (bpow radix2 1022) with (bpow radix2 (-1 + 1023)). rewrite bpow_plus. change (bpow radix2 (-1)) with (/ 2). fold big. unfold S in *. lra.
Qed.
Lemma end_test p proper : p = end1 s \/ p = end2 s -> (dist2 n (rco (center b)) (rco p) <= rr -> i_ball_point (H := B64 m) n b p proper = true) /\
  (i_ball_point (H := B64 m) n b p proper = true -> dist2 n (rco (center b)) (rco p) <= rr * (1 + 2 * lib_eps) + 3 * (lib_eps * S)).
Proof.
  intros E. assert (Dp : doubles n p) by (destruct E; subst; auto). assert (Bp : bounded p) by (destruct E; subst; auto). pose proof S_facts as (F1 & F2 & F3 & F4 & F5 & F6 & F7). assert (L : (n <= 50)%nat) by lia.
  assert (E0 : 0 < lib_eps) by (rewrite eps60; pose proof u64_pos; lra). assert (R0 : 0 <= rr) by (apply Rle_0_sqr).
  split; [intros H; apply (ball_point_complete m n b p L Dc Dp Fr R1 R2); exact H|]. intros H. assert (RE : 0 <= rr * (2 * lib_eps)) by (apply Rmult_le_pos; lra). assert (SE : 0 < lib_eps * S) by (apply Rmult_lt_0_compat; lra).
  destruct (ball_point_sound m n b p L Dc Dp Fr R1 R2 proper (dist_big p Bp) H) as [Q|Q]; [unfold rr in *; lra|]. specialize (Q B B Bc Bp). rewrite Rmin_left, Rmax_right in Q by lra. assert (lib_eps * B <= lib_eps * S) by (apply Rmult_le_compat_l; lra). lra.
Qed.
(** one point of the segment is tested *)
Lemma tested proper : exists q, 0 <= q <= 1 /\
  (forall t, 0 <= t <= 1 -> dist2 n (rco (center b)) (pos q) <= dist2 n (rco (center b)) (pos t) + 25 * (lib_eps * S)) /\
  (dist2 n (rco (center b)) (pos q) <= rr * (1 - lib_eps) - 18 * (lib_eps * S) -> i_seg_ball (H := B64 m) n s b proper = true) /\
  (i_seg_ball (H := B64 m) n s b proper = true -> dist2 n (rco (center b)) (pos q) <= rr * (1 + 2 * lib_eps) + 18 * (lib_eps * S)).
Proof.
  pose proof S_facts as (F1 & F2 & F3 & F4 & F5 & F6 & F7). pose proof u64_pos as U0. pose proof u_tiny as U1. pose proof eps60 as E60.
  assert (E0 : 0 < lib_eps) by (rewrite eps60; lra). assert (R0 : 0 <= rr) by (apply Rle_0_sqr). assert (RE : 0 <= rr * lib_eps) by (apply Rmult_le_pos; lra). assert (SE : 0 < lib_eps * S) by (apply Rmult_lt_0_compat; lra).
  destruct (diff_close (end2 s) (end1 s) D2 D1 B2 B1) as [Da Ca]. destruct (diff_close (center b) (end1 s) Dc D1 Bc B1) as [Do Co].
  set (a := vec_sub (H := B64 m) n (end2 s) (end1 s)) in *. set (o := vec_sub (H := B64 m) n (center b) (end1 s)) in *.
  destruct (dot_close a o X Y Da Do Ca Co) as [Fp Ep]. destruct (sqr_close a X Da Ca) as (Fl & El & Pl). pose proof (norm2_nonneg n X) as N0.
  set (P := inner n X Y) in *. set (N := norm2 n X) in *. destruct (n0_ok m) as [Fz Vz].
  assert (I : i_seg_ball (H := B64 m) n s b proper = if Rle_bool (val (dot (H := B64 m) n a o)) 0 then i_ball_point (H := B64 m) n b (end1 s) proper
    else if Rle_bool (val (sqr_mag (H := B64 m) n a)) (val (dot (H := B64 m) n a o)) then i_ball_point (H := B64 m) n b (end2 s) proper
    else less_eq_ (H := B64 m) (sqr_mag (H := B64 m) n (vec_sub (H := B64 m) n o (vec_scale (H := B64 m) n a (ndiv (Num := B64 m) (dot (H := B64 m) n a o) (sqr_mag (H := B64 m) n a))))) (nmul (Num := B64 m) (radius b) (radius b)) proper).
  { unfold i_seg_ball. fold a o. cbv zeta. cbn [nleb B64]. rewrite !leb_ok by auto. rewrite Vz. reflexivity. }
  rewrite I. clear I. set (p := dot (H := B64 m) n a o) in *. set (l := sqr_mag (H := B64 m) n a) in *. apply Rabs_le_inv in Ep, El.
  assert (ext : forall q e, (forall i, (i < n)%nat -> pos q i = rco e i) -> dist2 n (rco (center b)) (pos q) = dist2 n (rco (center b)) (rco e)) by (intros q e H; apply dist2_ext'; exact H).
  assert (rr * (1 - lib_eps) <= rr) by lra. assert (rr * (1 + 2 * lib_eps) = rr + 2 * (rr * lib_eps)) by ring.
  destruct (Rle_bool_spec (val p) 0) as [P0|P0].
  - exists 0. split; [lra|]. destruct (end_test (end1 s) proper (or_introl eq_refl)) as [T1 T2]. rewrite (ext 0 (end1 s)) by (intros i Hi; unfold pos; ring). split; [|split; [intros Q; apply T1; lra|intros Q; specialize (T2 Q); lra]].
    intros t Ht. rewrite <- (ext 0 (end1 s)) by (intros i Hi; unfold pos; ring). rewrite !pos_dist. fold P N. pose proof (near_min (norm2 n Y) P N 0 t (8 * (lib_eps * S)) ltac:(lra) N0 ltac:(lra) Ht ltac:(left; split; lra)). lra.
  - destruct (Rle_bool_spec (val l) (val p)) as [PN|PN].
    + exists 1. split; [lra|]. destruct (end_test (end2 s) proper (or_intror eq_refl)) as [T1 T2]. rewrite (ext 1 (end2 s)) by (intros i Hi; unfold pos; ring). split; [|split; [intros Q; apply T1; lra|intros Q; specialize (T2 Q); lra]].
      intros t Ht. rewrite <- (ext 1 (end2 s)) by (intros i Hi; unfold pos; ring). rewrite !pos_dist. fold P N. pose proof (near_min (norm2 n Y) P N 1 t (12 * (lib_eps * S)) ltac:(lra) N0 ltac:(lra) Ht ltac:(right; left; split; lra)). lra.
    + assert (L0 : 0 < val l) by lra. assert (K : 0 <= val p / val l <= 1) by (split; [apply Rlt_le, Rdiv_lt_0_compat; lra|apply Rmult_le_reg_r with (val l); [lra|]; unfold Rdiv; rewrite Rmult_assoc, Rinv_l by lra; lra]).
      destruct (div_ok p l Fp Fl ltac:(lra)) as [Fq Eq]. { rewrite Rabs_pos_eq by lra. lra. }
      set (q := SFdiv prec64 emax64 p l) in *. change (ndiv (Num := B64 m) p l) with q.
      assert (Q : 0 <= val q <= 1). { rewrite Eq. split; [rewrite <- rnd_0; apply rnd_mono; lra|rewrite <- rnd_1; apply rnd_mono; lra]. }
      exists (val q). split; [exact Q|]. destruct (perp_close a o X Y q Da Do Fq Q Ca Co) as [Fs Es]. set (w := sqr_mag (H := B64 m) n (vec_sub (H := B64 m) n o (vec_scale (H := B64 m) n a q))) in *.
      assert (Ed : dist2 n (rco (center b)) (pos (val q)) = norm2 n (fun i => Y i - val q * X i)) by (unfold dist2; apply inner_ext; intros i Hi; unfold X, Y, pos; ring).
      apply fl_iff in Fr. destruct (mul_ok _ _ Fr Fr) as [Ft Et]. { fold rr. apply (big_1000 0 ltac:(lia)). rewrite Rabs_pos_eq by lra. pose proof (bpow_gt_0 radix2 (-495)). pose proof (bpow_gt_0 radix2 1000). assert (Hrr : rr <= bpow radix2 500 * bpow radix2 500) by (apply Rmult_le_compat; lra). rewrite <- bpow_plus in Hrr. change (500 + 500)%Z with 1000%Z in Hrr. lra. }
      fold rr in Et. change (nmul (Num := B64 m) (radius b) (radius b)) with (SFmul prec64 emax64 (radius b) (radius b)). set (c := SFmul prec64 emax64 (radius b) (radius b)) in *.
      assert (Ec : Rabs (val c - rr) <= u64 * rr + u64 * S). { rewrite Et. eapply Rle_trans; [apply rnd_err|]. rewrite (Rabs_pos_eq rr) by lra. pose proof eta_u. assert (u64 <= u64 * S) by (rewrite <- (Rmult_1_r u64) at 1; apply Rmult_le_compat_l; lra). lra. }
      assert (LS : rr * lib_eps = 60 * (u64 * rr)) by (rewrite E60; ring). assert (LT : lib_eps * S = 60 * (u64 * S)) by (rewrite E60; ring). pose proof uS as US. assert (UR : 0 <= u64 * rr) by (apply Rmult_le_pos; lra).
      split.
      * intros t Ht. rewrite !pos_dist. fold P N.
        assert (G : Rabs (val q * N - P) <= 12.4 * (lib_eps * S)); [|pose proof (near_min (norm2 n Y) P N (val q) t (12.4 * (lib_eps * S)) ltac:(lra) N0 Q Ht ltac:(right; right; exact G)); lra].
        assert (G1 : Rabs (val q * val l - val p) <= 8 * (u64 * S)).
        { replace (val q * val l - val p) with ((val q - val p / val l) * val l) by (field; lra). rewrite Eq. replace (8 * (u64 * S)) with ((u64 * 1.5) * (5.4 * S) - 0.1 * (u64 * S)) by lra. assert (Hq : Rabs (rnd (val p / val l) - val p / val l) <= u64 * 1.5) by (eapply Rle_trans; [apply rnd_err|]; rewrite (Rabs_pos_eq (val p / val l)) by lra; pose proof eta_u; assert (u64 * (val p / val l) <= u64 * 1) by (apply Rmult_le_compat_l; lra); lra).
          assert (Hl : Rabs (val l) <= 4.1 * S) by (rewrite Rabs_pos_eq; lra). eapply Rle_trans; [exact (prod_size _ _ _ _ Hq Hl)|]. lra. }
        assert (G2 : Rabs (val q * N - val q * val l) <= 4 * (lib_eps * S)). { rewrite <- Rmult_minus_distr_l. rewrite <- (Rmult_1_l (4 * (lib_eps * S))). apply prod_size; apply Rabs_le; lra. }
        apply Rabs_le_inv in G1, G2. apply Rabs_le. split; lra.
      * rewrite Ed. apply Rabs_le_inv in Es, Ec. unfold less_eq_. destruct proper; cbn [negb nleb nltb B64].
        -- rewrite ltb_ok by auto. destruct (Rlt_bool_spec (val w) (val c)); split; intros; try lra; auto; discriminate.
        -- rewrite leb_ok by auto. destruct (Rle_bool_spec (val w) (val c)); split; intros; try lra; auto; discriminate.
Qed.
End V.
