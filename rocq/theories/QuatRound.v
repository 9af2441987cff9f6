(** Rounding in products of quaternions. *)
From Coq Require Import ZArith NArith Reals Bool SpecFloat Lia Lra List Psatz.
From Flocq Require Import Core IEEE754.BinarySingleNaN.
From Verif Require Import Base Scalar OrdLib RLib B64Lib B64Ops FloatOps RoundLib RSpec ConstModel VecModel RotModel QuatModel VecSpec ConstSpec RoundSpec QuatSpec QuatRoundSpec
  RoundProofs RoundProofs2 RoundProofs3 RoundProofs4 RoundProofs5 QuatProofs DriftProofs.
Import ListNotations.
Open Scope R_scope.

(** ** Numbers *)
Lemma u64_tiny : 0 < u64 <= / 1000000000000000.
Proof. split; [apply u64_pos|]. unfold u64, bpow. change (Z.pow_pos radix2 53) with 9007199254740992%Z. lra. Qed.
Lemma eta64_tiny : 0 < eta64 <= u64 / 1000.
Proof.
  split; [apply eta64_pos|]. apply Rle_trans with (bpow radix2 (-53 + -10)); [apply bpow_le; lia|]. rewrite bpow_plus. fold u64.
  assert (bpow radix2 (-10) <= / 1000) by (unfold bpow; change (Z.pow_pos radix2 10) with 1024%Z; lra). pose proof u64_pos. unfold Rdiv. apply Rmult_le_compat_l; lra.
Qed.
Lemma big_large : 1000000 <= big.
Proof. apply Rle_trans with (bpow radix2 20); [unfold bpow; change (Z.pow_pos radix2 20) with 1048576%Z; lra|apply bpow_le; lia]. Qed.
Lemma epsR_u : epsR = 60 * u64.
Proof. rewrite epsR_lib. unfold lib_eps, u64. change (-52)%Z with (1 + -53)%Z. rewrite bpow_plus. change (bpow radix2 1) with 2. ring. Qed.
Ltac nums := pose proof u64_tiny as [?U0 ?U1]; pose proof eta64_tiny as [?E0 ?E1]; pose proof big_large as ?BG.

(** ** Approximation with an absolute error *)
Definition ap (x : spec_float) (X e : R) : Prop := fl x /\ Rabs (val x - X) <= e.
Lemma ap_exact x : fl x -> ap x (val x) 0.
Proof. intros F. split; auto. rewrite Rminus_diag_eq, Rabs_R0 by auto. lra. Qed.
Lemma ap_le x X e f : ap x X e -> e <= f -> ap x X f.
Proof. intros [F H] L. split; auto. lra. Qed.
Lemma ap_eq x X Y e : X = Y -> ap x X e -> ap x Y e. Proof. now intros ->. Qed.
Lemma ap_abs x X e M : ap x X e -> Rabs X <= M -> Rabs (val x) <= M + e.
Proof. intros [_ H] B. pose proof (Rabs_triang (val x - X) X) as T. replace (val x - X + X) with (val x) in T by ring. lra. Qed.
Lemma rnd_within x X e M : Rabs (x - X) <= e -> Rabs X + e <= M -> M <= big -> Rabs x <= big /\ Rabs (rnd x - X) <= e + u64 * M + eta64.
Proof.
  intros H B L. nums. pose proof (Rabs_triang (x - X) X) as T. replace (x - X + X) with x in T by ring. split; [lra|].
  pose proof (rnd_err x) as R. pose proof (Rabs_triang (rnd x - x) (x - X)) as T2. replace (rnd x - x + (x - X)) with (rnd x - X) in T2 by ring.
  assert (u64 * Rabs x <= u64 * M) by (apply Rmult_le_compat_l; lra). lra.
Qed.
Lemma ap_add x y X Y e f M : ap x X e -> ap y Y f -> Rabs (X + Y) + (e + f) <= M -> M <= big -> ap (SFadd prec64 emax64 x y) (X + Y) (e + f + u64 * M + eta64).
Proof.
  intros [Fx Hx] [Fy Hy] B L. nums. destruct (rnd_within (val x + val y) (X + Y) (e + f) M) as [A1 A2]; auto.
  - pose proof (Rabs_triang (val x - X) (val y - Y)) as T. replace (val x - X + (val y - Y)) with (val x + val y - (X + Y)) in T by ring. lra.
  - destruct (add_ok x y Fx Fy A1) as [F E]. split; auto. now rewrite E.
Qed.
Lemma ap_sub x y X Y e f M : ap x X e -> ap y Y f -> Rabs (X - Y) + (e + f) <= M -> M <= big -> ap (SFsub prec64 emax64 x y) (X - Y) (e + f + u64 * M + eta64).
Proof.
  intros [Fx Hx] [Fy Hy] B L. nums. destruct (rnd_within (val x - val y) (X - Y) (e + f) M) as [A1 A2]; auto.
  - pose proof (Rabs_triang (val x - X) (- (val y - Y))) as T. rewrite Rabs_Ropp in T. replace (val x - X + - (val y - Y)) with (val x - val y - (X - Y)) in T by ring. lra.
  - destruct (sub_ok x y Fx Fy A1) as [F E]. split; auto. now rewrite E.
Qed.
Lemma prod_close x y X Y e f A B : Rabs (x - X) <= e -> Rabs (y - Y) <= f -> Rabs X <= A -> Rabs Y + f <= B -> Rabs (x * y - X * Y) <= e * B + A * f.
Proof.
  intros Hx Hy HA HB. replace (x * y - X * Y) with ((x - X) * y + X * (y - Y)) by ring. eapply Rle_trans; [apply Rabs_triang|]. rewrite !Rabs_mult.
  pose proof (Rabs_triang (y - Y) Y) as T. replace (y - Y + Y) with y in T by ring. apply Rplus_le_compat; apply Rmult_le_compat; auto using Rabs_pos; lra.
Qed.
Lemma ap_mul x y X Y e f A B : ap x X e -> ap y Y f -> Rabs X + e <= A -> Rabs Y + f <= B -> A * B <= big ->
  ap (SFmul prec64 emax64 x y) (X * Y) (e * B + A * f + u64 * (A * B) + eta64).
Proof.
  intros [Fx Hx] [Fy Hy] HA HB L. nums. pose proof (Rabs_pos (val x - X)). pose proof (Rabs_pos (val y - Y)). pose proof (Rabs_pos X). pose proof (Rabs_pos Y).
  assert (Px : Rabs (val x) <= A). { pose proof (Rabs_triang (val x - X) X) as T. replace (val x - X + X) with (val x) in T by ring. lra. }
  assert (Py : Rabs (val y) <= B). { pose proof (Rabs_triang (val y - Y) Y) as T. replace (val y - Y + Y) with (val y) in T by ring. lra. }
  assert (P : Rabs (val x * val y) <= A * B) by (rewrite Rabs_mult; apply Rmult_le_compat; auto using Rabs_pos).
  destruct (mul_ok x y Fx Fy ltac:(lra)) as [F E]. split; auto. rewrite E.
  pose proof (prod_close (val x) (val y) X Y e f A B Hx Hy ltac:(lra) HB) as C.
  pose proof (rnd_err (val x * val y)) as R. pose proof (Rabs_triang (rnd (val x * val y) - val x * val y) (val x * val y - X * Y)) as T2.
  replace (rnd (val x * val y) - val x * val y + (val x * val y - X * Y)) with (rnd (val x * val y) - X * Y) in T2 by ring.
  assert (u64 * Rabs (val x * val y) <= u64 * (A * B)) by (apply Rmult_le_compat_l; lra). lra.
Qed.
Lemma quot_close x y X Y e f L A : Rabs (x - X) <= e -> Rabs (y - Y) <= f -> Rabs X <= A -> L <= Y - f -> 0 < L -> 0 <= f -> Rabs (x / y - X / Y) <= (e + A * f / L) / L.
Proof.
  intros Hx Hy HA HL L0 F0. assert (Ly : L <= y) by (apply Rabs_le_inv in Hy; lra). assert (LY : L <= Y) by lra. pose proof (Rabs_pos X). pose proof (Rabs_pos (x - X)).
  replace (x / y - X / Y) with (((x - X) - X * (y - Y) / Y) / y) by (field; lra).
  unfold Rdiv at 1. rewrite Rabs_mult. rewrite (Rabs_pos_eq (/ y)) by (apply Rlt_le, Rinv_0_lt_compat; lra).
  assert (I1 : / y <= / L) by (apply Rinv_le_contravar; lra). assert (I2 : / Y <= / L) by (apply Rinv_le_contravar; lra). assert (0 < / y) by (apply Rinv_0_lt_compat; lra). assert (0 < / Y) by (apply Rinv_0_lt_compat; lra).
  unfold Rdiv. apply Rmult_le_compat; auto using Rabs_pos; [lra|].
  unfold Rminus at 1. eapply Rle_trans; [apply Rabs_triang|]. rewrite Rabs_Ropp. apply Rplus_le_compat; [exact Hx|]. rewrite !Rabs_mult. rewrite (Rabs_pos_eq (/ Y)) by lra.
  apply Rmult_le_compat; auto; [apply Rmult_le_pos; auto using Rabs_pos|lra|]. apply Rmult_le_compat; auto using Rabs_pos.
Qed.
Lemma ap_div x y X Y e f L A M : ap x X e -> ap y Y f -> Rabs X <= A -> L <= Y - f -> 0 < L -> Rabs (X / Y) + (e + A * f / L) / L <= M -> M <= big ->
  ap (SFdiv prec64 emax64 x y) (X / Y) ((e + A * f / L) / L + u64 * M + eta64).
Proof.
  intros [Fx Hx] [Fy Hy] HA HL L0 B BM. nums. assert (F0 : 0 <= f) by (pose proof (Rabs_pos (val y - Y)); lra).
  pose proof (quot_close _ _ _ _ _ _ _ _ Hx Hy HA HL L0 F0) as C. destruct (rnd_within (val x / val y) (X / Y) _ M C B ltac:(lra)) as [A1 A2].
  destruct (div_ok x y Fx Fy) as [F E]; auto; [apply Rabs_le_inv in Hy; lra|]. split; auto. now rewrite E.
Qed.

(** ** Dot and Cross of vectors of length about one *)
Section B.
Variable m : libm.
Lemma half_sq a b : Rabs (a * b) <= (a * a + b * b) / 2.
Proof. apply Rabs_le. pose proof (pow2_ge_0 (a - b)). pose proof (pow2_ge_0 (a + b)). lra. Qed.
Lemma small_co n (v : nat -> R) i : (i < n)%nat -> norm2 n v <= 121 / 100 -> Rabs (v i) <= 11 / 10.
Proof.
  intros Hi B. assert (v i * v i <= norm2 n v) by (apply (Rsum_term_le n (fun i => v i * v i)); auto; intros; apply Rle_0_sqr).
  apply Rabs_le. split; nra.
Qed.
Lemma clamped s d X K C : Rabs (s - X) <= K -> (d = s \/ d = 0 /\ Rabs s <= C) -> 0 <= C -> Rabs (d - X) <= K + C.
Proof.
  intros H [->|[-> H2]] HC; [lra|]. pose proof (Rabs_triang (s - X) (- s)) as T. rewrite Rabs_Ropp in T. replace (s - X + - s) with (0 - X) in T by ring. lra.
Qed.
Lemma clamp_size : 2 * epsR * (1 + u64) * (11 / 10) + eta64 <= 133 * u64.
Proof. nums. rewrite epsR_u. assert (u64 * u64 <= u64 * / 1000) by (apply Rmult_le_compat_l; lra). lra. Qed.
Lemma ap_dot a b : doubles 3 a -> doubles 3 b -> norm2 3 (rco a) <= 121 / 100 -> norm2 3 (rco b) <= 121 / 100 ->
  ap (dot (H := B64 m) 3 a b) (inner 3 (rco a) (rco b)) (140 * u64).
Proof.
  intros Da Db Ba Bb. nums. assert (MS : Rsum 3 (fun i => Rabs (rco a i * rco b i)) <= 121 / 100).
  { unfold norm2, inner in *. cbn [Rsum] in *. pose proof (half_sq (rco a 0) (rco b 0)). pose proof (half_sq (rco a 1) (rco b 1)). pose proof (half_sq (rco a 2) (rco b 2)). lra. }
  destruct (dot_ok m 3 a b ltac:(lia) Da Db ltac:(lra)) as (F & s & Es & Cs). split; auto.
  assert (K : Rabs (s - inner 3 (rco a) (rco b)) <= 7 * u64). { eapply Rle_trans; [exact Es|]. replace (INR 3) with 3 by (simpl; lra). assert (u64 * Rsum 3 (fun i => Rabs (rco a i * rco b i)) <= u64 * (121 / 100)) by (apply Rmult_le_compat_l; lra). lra. }
  replace (140 * u64) with (7 * u64 + 133 * u64) by ring. apply (clamped s); auto; [|lra]. destruct Cs as [E|[E C]]; [now left|right]. split; auto.
  eapply Rle_trans; [apply (C (11 / 10) (11 / 10)); intros; apply (small_co 3); auto|]. rewrite Rmin_left by lra. apply clamp_size.
Qed.
Lemma ap_cross a b i : doubles 3 a -> doubles 3 b -> norm2 3 (rco a) <= 121 / 100 -> norm2 3 (rco b) <= 121 / 100 -> (i < 3)%nat ->
  doubles 3 (cross3 (H := B64 m) a b) /\ Rabs (rco (cross3 (H := B64 m) a b) i - cross_coord (rco a) (rco b) i) <= 140 * u64.
Proof.
  intros Da Db Ba Bb Hi. nums. assert (MS : forall i, (i < 3)%nat -> cross_mass (rco a) (rco b) i <= 121 / 100).
  { intros j Hj. unfold norm2, inner in *. cbn [Rsum] in *. pose proof (Rle_0_sqr (rco a 0)). pose proof (Rle_0_sqr (rco a 1)). pose proof (Rle_0_sqr (rco a 2)). pose proof (Rle_0_sqr (rco b 0)). pose proof (Rle_0_sqr (rco b 1)). pose proof (Rle_0_sqr (rco b 2)). unfold Rsqr in *.
    destruct j as [|[|[|j]]]; [| | |lia]; cbn [cross_mass]; match goal with |- Rabs (?x * ?y) + Rabs (?z * ?t) <= _ => pose proof (half_sq x y); pose proof (half_sq z t) end; lra. }
  destruct (cross3_ok m a b Da Db) as [D Ec]; [intros j Hj; specialize (MS j Hj); lra|]. split; auto. destruct (Ec i Hi) as (s & Es & Cs).
  assert (K : Rabs (s - cross_coord (rco a) (rco b) i) <= 7 * u64). { eapply Rle_trans; [exact Es|]. specialize (MS i Hi). assert (u64 * cross_mass (rco a) (rco b) i <= u64 * (121 / 100)) by (apply Rmult_le_compat_l; lra). lra. }
  replace (140 * u64) with (7 * u64 + 133 * u64) by ring. apply (clamped s); auto; [|lra]. destruct Cs as [E|[E C]]; [now left|right]. split; auto.
  eapply Rle_trans; [apply (C (11 / 10) (11 / 10)); intros; apply (small_co 3); auto|]. rewrite Rmin_left by lra. apply clamp_size.
Qed.
End B.
