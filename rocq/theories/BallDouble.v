(** The point-in-ball test in doubles: the factor (1 + epsilon) on the squared radius covers the rounding errors. *)
From Coq Require Import ZArith NArith Reals Bool SpecFloat Lia Lra List.
From Flocq Require Import Core IEEE754.BinarySingleNaN.
From Verif Require Import Base Scalar RLib B64Lib B64Ops ConstSpec RoundLib RSpec RoundSpec ConstModel VecModel ShapeModel IntersectModel VecSpec RoundProofs RoundProofs2 RoundProofs3.
Open Scope R_scope.

Lemma mul_up x y d : 0 <= x -> y <= 1 + d -> x * y <= x + x * d.
Proof. intros X Y. replace (x + x * d) with (x * (1 + d)) by ring. now apply Rmult_le_compat_l. Qed.
Lemma mul_dn x y d : 0 <= x -> 1 + d <= y -> x + x * d <= x * y.
Proof. intros X Y. replace (x + x * d) with (x * (1 + d)) by ring. now apply Rmult_le_compat_l. Qed.
Lemma u_tiny : u64 <= / 10 ^ 12.
Proof.
  unfold u64. apply Rle_trans with (bpow radix2 (-40)); [apply bpow_le; lia|]. change (-40)%Z with (Z.opp 40). rewrite bpow_opp. apply Rinv_le; [apply pow_lt; lra|].
  unfold bpow. change (Z.pow_pos radix2 40) with 1099511627776%Z. lra.
Qed.
(** The threshold: three roundings. *)
Lemma threshold_bounds u q a k t : 0 < u <= / 10 ^ 12 -> 0 < q ->
  Rabs (a - q) <= u * q -> Rabs (k - (1 + 60 * u)) <= u * (1 + 60 * u) -> Rabs (t - a * k) <= u * Rabs (a * k) ->
  q * (1 + 56 * u) <= t <= q * (1 + 64 * u).
Proof.
  intros [U0 U1] Q A K Tt. apply Rabs_le_inv in A, K.
  assert (U2 : 0 <= u * u <= u / 10 ^ 10) by nra.
  assert (K1 : 1 + 58.9 * u <= k <= 1 + 61.1 * u) by lra.
  assert (A1 : q * (1 - u) <= a <= q * (1 + u)) by lra.
  assert (Q1 : 0 < q * (1 - u)) by (apply Rmult_lt_0_compat; lra). assert (A0 : 0 < a) by lra.
  assert (P1 : q * (1 + 57.8 * u) <= a * k).
  { apply Rle_trans with (q * ((1 - u) * (1 + 58.9 * u))); [apply Rmult_le_compat_l; lra|].
    rewrite <- Rmult_assoc. apply Rmult_le_compat; lra. }
  assert (P2 : a * k <= q * (1 + 62.2 * u)).
  { apply Rle_trans with (q * ((1 + u) * (1 + 61.1 * u))); [|apply Rmult_le_compat_l; lra].
    rewrite <- Rmult_assoc. apply Rmult_le_compat; lra. }
  assert (P0 : 0 < a * k) by (apply Rmult_lt_0_compat; lra). rewrite (Rabs_pos_eq (a * k)) in Tt by lra. apply Rabs_le_inv in Tt.
  split.
  - apply Rle_trans with (a * k * (1 - u)); [|lra]. apply Rle_trans with (q * (1 + 57.8 * u) * (1 - u)); [|apply Rmult_le_compat_r; lra].
    rewrite Rmult_assoc. apply Rmult_le_compat_l; lra.
  - apply Rle_trans with (a * k * (1 + u)); [lra|]. apply Rle_trans with (q * (1 + 62.2 * u) * (1 + u)); [apply Rmult_le_compat_r; lra|].
    rewrite Rmult_assoc. apply Rmult_le_compat_l; lra.
Qed.
(** The distance: relative error from the sum, absolute error from underflow. *)
Lemma below_threshold u q X s t N h : 0 < u <= / 10 ^ 12 -> 0 < q -> X <= q -> 0 <= X -> 0 <= N <= 50 -> 0 <= h -> h <= u * q / 10000 ->
  Rabs (s - X) <= (N + 4) * u * X + 2 * N * h -> q * (1 + 56 * u) <= t -> s < t.
Proof.
  intros [U0 U1] Q Xq X0 [N0 N1] H0 H1 A Tt. apply Rabs_le_inv in A.
  assert (NX : (N + 4) * u * X <= 54 * u * q).
  { apply Rmult_le_compat; auto; [apply Rmult_le_pos; lra|]. apply Rmult_le_compat_r; lra. }
  assert (NH : 2 * N * h <= 100 * h) by (apply Rmult_le_compat_r; lra).
  assert (UQ : 0 < u * q) by (apply Rmult_lt_0_compat; lra).
  lra.
Qed.
Lemma above_threshold u q X s t N h : 0 < u <= / 10 ^ 12 -> 0 < q -> 0 <= X -> 0 <= N <= 50 -> 0 <= h -> h <= u * q / 10000 ->
  Rabs (s - X) <= (N + 4) * u * X + 2 * N * h -> t <= q * (1 + 64 * u) -> s <= t -> X <= q * (1 + 120 * u).
Proof.
  intros [U0 U1] Q X0 [N0 N1] H0 H1 A Tt St. apply Rabs_le_inv in A.
  assert (NX : (N + 4) * u * X <= 54 * u * X).
  { apply Rmult_le_compat_r; auto. apply Rmult_le_compat_r; lra. }
  assert (NH : 2 * N * h <= 100 * h) by (apply Rmult_le_compat_r; lra).
  assert (UQ : 0 < u * q) by (apply Rmult_lt_0_compat; lra).
  assert (B : X * (1 - 54 * u) <= q * (1 + 65 * u)) by lra.
  assert (U2 : 0 <= u * u <= u / 10 ^ 10).
  { split; [apply Rmult_le_pos; lra|]. unfold Rdiv. apply Rmult_le_compat_l; lra. }
  apply Rmult_le_reg_r with (1 - 54 * u); [lra|]. eapply Rle_trans; [exact B|]. rewrite Rmult_assoc. apply Rmult_le_compat_l; lra.
Qed.
Lemma clamped u e X s M N h : 0 < u <= / 10 ^ 12 -> e = 60 * u -> 0 <= X -> 0 <= N <= 50 -> 0 <= h -> h <= u / 10000 -> 1 <= M ->
  Rabs (s - X) <= (N + 4) * u * X + 2 * N * h -> s <= 2 * e * (1 + u) * M + h -> X <= 3 * e * M.
Proof.
  intros [U0 U1] -> X0 [N0 N1] H0 H1 M1 A St. apply Rabs_le_inv in A.
  assert (NX : (N + 4) * u * X <= 54 * u * X).
  { apply Rmult_le_compat_r; auto. apply Rmult_le_compat_r; lra. }
  assert (NH : 2 * N * h <= 100 * h) by (apply Rmult_le_compat_r; lra).
  assert (UM : u <= u * M) by (rewrite <- (Rmult_1_r u) at 1; apply Rmult_le_compat_l; lra).
  assert (UM2 : 0 <= u * M * u <= u * M / 10 ^ 10).
  { split; [apply Rmult_le_pos; lra|]. unfold Rdiv. apply Rmult_le_compat_l; lra. }
  assert (B : X * (1 - 54 * u) <= 121 * (u * M)) by lra.
  apply Rmult_le_reg_r with (1 - 54 * u); [lra|]. eapply Rle_trans; [exact B|]. lra.
Qed.

Section D.
Variable m : libm.
Variables (n : nat) (b : ball spec_float) (p : point spec_float).
Hypothesis Hn : (n <= 50)%nat.
Hypothesis Dc : doubles n (center b).
Hypothesis Dp : doubles n p.
Hypothesis Fr : finite_double (radius b).
Hypothesis R1 : bpow radix2 (-495) <= val (radius b).
Hypothesis R2 : val (radius b) <= bpow radix2 500.
Let q := val (radius b) * val (radius b).
Let t := nmul (Num := B64 m) (nmul (Num := B64 m) (radius b) (radius b)) (nadd (Num := B64 m) (n1 (H := B64 m)) (neps (Num := B64 m))).
Lemma q_low : bpow radix2 (-990) <= q.
Proof.
  change (-990)%Z with (-495 + -495)%Z. rewrite bpow_plus. unfold q. pose proof (bpow_gt_0 radix2 (-495)). apply Rmult_le_compat; lra.
Qed.
Lemma q_high : q <= bpow radix2 1000.
Proof.
  change 1000%Z with (500 + 500)%Z. rewrite bpow_plus. unfold q. pose proof (bpow_gt_0 radix2 (-495)). apply Rmult_le_compat; lra.
Qed.
Lemma q_pos : 0 < q. Proof. pose proof q_low. pose proof (bpow_gt_0 radix2 (-990)). lra. Qed.
Lemma h_small : eta64 <= u64 * q / 10000.
Proof.
  pose proof q_low as Q. unfold eta64. change (-1075)%Z with (-32 + (-53 + -990))%Z. rewrite !bpow_plus. fold u64.
  assert (B : bpow radix2 (-32) <= / 10000).
  { change (-32)%Z with (Z.opp 32). rewrite bpow_opp. apply Rinv_le; [lra|]. unfold bpow. change (Z.pow_pos radix2 32) with 4294967296%Z. lra. }
  unfold Rdiv. rewrite (Rmult_comm (u64 * q)). pose proof (bpow_gt_0 radix2 (-32)). pose proof (bpow_gt_0 radix2 (-990)). pose proof u64_pos.
  apply Rmult_le_compat; try lra; [apply Rmult_le_pos; lra|]. apply Rmult_le_compat_l; lra.
Qed.
Lemma h_small1 : eta64 <= u64 / 10000.
Proof.
  unfold eta64. change (-1075)%Z with (-32 + (-53 + -990))%Z. rewrite !bpow_plus. fold u64.
  assert (B : bpow radix2 (-32) <= / 10000).
  { change (-32)%Z with (Z.opp 32). rewrite bpow_opp. apply Rinv_le; [lra|]. unfold bpow. change (Z.pow_pos radix2 32) with 4294967296%Z. lra. }
  assert (C : bpow radix2 (-990) <= 1) by (change 1 with (bpow radix2 0); apply bpow_le; lia).
  unfold Rdiv. rewrite (Rmult_comm u64 (/ 10000)). pose proof (bpow_gt_0 radix2 (-32)). pose proof (bpow_gt_0 radix2 (-990)). pose proof u64_pos.
  apply Rmult_le_compat; try lra; [apply Rmult_le_pos; lra|]. rewrite <- (Rmult_1_r u64) at 2. apply Rmult_le_compat_l; lra.
Qed.
Lemma one_val : fl (n1 (H := B64 m)) /\ val (n1 (H := B64 m)) = 1.
Proof.
  split; [split; reflexivity|]. unfold n1. cbn [nofZ B64]. unfold val. set (e := b64_ofZ 1). vm_compute in e. unfold e, SF2R, Defs.F2R. cbn [Defs.Fnum Defs.Fexp SpecFloat.cond_Zopp]. unfold bpow. simpl. lra.
Qed.
Lemma eps_u : val b64_eps = 60 * u64.
Proof. rewrite eps_val. unfold u64. change (-52)%Z with (1 + -53)%Z. rewrite bpow_plus. change (bpow radix2 1) with 2. ring. Qed.
Lemma eps_fl : fl b64_eps. Proof. split; [apply eps_double|reflexivity]. Qed.
Lemma big_1000 x : Rabs x <= 2 * bpow radix2 1000 -> Rabs x <= big.
Proof.
  intros B. eapply Rle_trans; [exact B|]. change 2 with (bpow radix2 1). rewrite <- bpow_plus. apply bpow_le. lia.
Qed.
Lemma threshold_ok : fl t /\ q * (1 + 56 * u64) <= val t <= q * (1 + 64 * u64).
Proof.
  pose proof u64_pos as [U0 _]. pose proof u_tiny as U1. pose proof q_pos as Q0. pose proof q_high as Q1. pose proof q_low as Q2.
  assert (Fr' : fl (radius b)) by (apply fl_iff; exact Fr).
  destruct (mul_ok _ _ Fr' Fr') as [Fa Ea]. { fold q. apply big_1000. rewrite Rabs_pos_eq; lra. }
  fold q in Ea. destruct one_val as [F1 V1].
  assert (P0 : 1 <= bpow radix2 1000) by (change 1 with (bpow radix2 0); apply bpow_le; lia).
  destruct (add_ok _ _ F1 eps_fl) as [Fk Ek]. { rewrite V1, eps_u. apply big_1000. rewrite Rabs_pos_eq; lra. }
  assert (A : Rabs (rnd q - q) <= u64 * q).
  { rewrite <- (Rabs_pos_eq q) at 3 by lra. apply rnd_rel_err. rewrite Rabs_pos_eq by lra. apply Rle_trans with (bpow radix2 (-990)); auto. apply bpow_le. lia. }
  assert (K : Rabs (rnd (1 + 60 * u64) - (1 + 60 * u64)) <= u64 * (1 + 60 * u64)).
  { rewrite <- (Rabs_pos_eq (1 + 60 * u64)) at 3 by lra. apply rnd_rel_err. rewrite Rabs_pos_eq by lra. apply Rle_trans with 1; [|lra].
    change 1 with (bpow radix2 0). apply bpow_le. lia. }
  rewrite V1, eps_u in Ek.
  set (a := SFmul prec64 emax64 (radius b) (radius b)) in *. set (k := SFadd prec64 emax64 (n1 (H := B64 m)) b64_eps) in *.
  rewrite <- Ea in A. rewrite <- Ek in K.
  assert (A1 : q / 2 <= val a <= q * 1.1).
  { apply Rabs_le_inv in A. assert (u64 * q <= q / 10) by (unfold Rdiv; rewrite (Rmult_comm q); apply Rmult_le_compat_r; lra). lra. }
  assert (K1 : 1 <= val k <= 1.1). { apply Rabs_le_inv in K. assert (0 <= u64 * u64 <= u64 / 1000) by (split; [apply Rmult_le_pos; lra|unfold Rdiv; apply Rmult_le_compat_l; lra]). lra. }
  assert (P1 : q / 2 <= val a * val k). { rewrite <- (Rmult_1_r (q / 2)). apply Rmult_le_compat; lra. }
  assert (P2 : val a * val k <= q * 1.1 * 1.1). { apply Rmult_le_compat; lra. }
  destruct (mul_ok a k Fa Fk) as [Ft Et]. { apply big_1000. rewrite Rabs_pos_eq; lra. }
  change (SFmul prec64 emax64 a k) with t in Ft, Et. split; [exact Ft|].
  apply (threshold_bounds u64 q (val a) (val k)); auto. rewrite Et. apply rnd_rel_err.
  rewrite Rabs_pos_eq by lra. apply Rle_trans with (bpow radix2 (-990) / 2); [|lra].
  change (-990)%Z with (1 + -991)%Z. rewrite bpow_plus. change (bpow radix2 1) with 2. replace (2 * bpow radix2 (-991) / 2) with (bpow radix2 (-991)) by field. apply bpow_le. lia.
Qed.
Lemma small_n : (Z.of_nat n <= 2 ^ 26)%Z /\ 0 <= INR n <= 50.
Proof. split; [lia|]. split; [apply pos_INR|]. replace 50 with (INR 50) by (cbn; lra). now apply le_INR. Qed.

Lemma ball_point_complete proper : dist2 n (rco (center b)) (rco p) <= q -> i_ball_point (H := B64 m) n b p proper = true.
Proof.
  intros X. destruct small_n as [Ln In]. pose proof q_high as Q1. pose proof u64_pos as [U0 _].
  destruct (squared_distance_ok m n (center b) p Ln Dc Dp) as (Fd & Pd & s & S0 & Es & Cl).
  { eapply Rle_trans; [exact X|]. eapply Rle_trans; [exact Q1|]. apply Rle_trans with (bpow radix2 1022); [apply bpow_le; lia|].
    unfold big. change 1023%Z with (1 + 1022)%Z. rewrite bpow_plus. change (bpow radix2 1) with 2. lra. }
  destruct threshold_ok as [Ft [T1 _]].
  assert (St : s < val t).
  { apply (below_threshold u64 q (dist2 n (rco (center b)) (rco p)) s (val t) (INR n) eta64); auto using q_pos, h_small; [split; [lra|exact u_tiny]|apply dist2_nonneg|pose proof eta64_pos; lra]. }
  assert (Dt : val (squared_distance (H := B64 m) n (center b) p) < val t) by (destruct Cl as [E|[E _]]; cbv zeta in E; rewrite E; lra).
  unfold i_ball_point. fold t. unfold less_eq_. destruct proper; cbn [negb nleb nltb B64].
  - rewrite ltb_ok by auto. now apply Rlt_bool_true.
  - rewrite leb_ok by auto. apply Rle_bool_true. lra.
Qed.
Lemma ball_point_sound proper : dist2 n (rco (center b)) (rco p) <= bpow radix2 1022 -> i_ball_point (H := B64 m) n b p proper = true ->
  dist2 n (rco (center b)) (rco p) <= q * (1 + 2 * lib_eps) \/
  forall A B, (forall i, (i < n)%nat -> Rabs (rco (center b) i) <= A) -> (forall i, (i < n)%nat -> Rabs (rco p i) <= B) ->
    dist2 n (rco (center b)) (rco p) <= 3 * lib_eps * Rmax 1 (Rmin A B).
Proof.
  intros X I. destruct small_n as [Ln In]. pose proof u64_pos as [U0 _]. pose proof u_tiny as U1.
  destruct (squared_distance_ok m n (center b) p Ln Dc Dp) as (Fd & Pd & s & S0 & Es & Cl).
  { eapply Rle_trans; [exact X|]. unfold big. change 1023%Z with (1 + 1022)%Z. rewrite bpow_plus. change (bpow radix2 1) with 2. lra. }
  destruct threshold_ok as [Ft [_ T1]].
  assert (Dt : val (squared_distance (H := B64 m) n (center b) p) <= val t).
  { unfold i_ball_point in I. fold t in I. unfold less_eq_ in I. destruct proper; cbn [negb nleb nltb B64] in I.
    - rewrite ltb_ok in I by auto. destruct (Rlt_bool_spec (val (squared_distance (H := B64 m) n (center b) p)) (val t)); [lra|discriminate].
    - rewrite leb_ok in I by auto. destruct (Rle_bool_spec (val (squared_distance (H := B64 m) n (center b) p)) (val t)); [lra|discriminate]. }
  assert (EL : lib_eps = 60 * u64) by (rewrite <- eps_u, eps_val; reflexivity).
  cbv zeta in Cl. destruct Cl as [E|[E Cl]].
  - left. rewrite EL. replace (2 * (60 * u64)) with (120 * u64) by ring.
    apply (above_threshold u64 q _ s (val t) (INR n) eta64); auto using q_pos, h_small; [apply dist2_nonneg|pose proof eta64_pos; lra|lra].
  - right. intros A B HA HB. specialize (Cl A B HA HB). rewrite epsR_lib in Cl.
    apply (clamped u64 lib_eps _ s _ (INR n) eta64); auto using h_small1; [apply dist2_nonneg|pose proof eta64_pos; lra|apply Rmax_l].
Qed.
End D.
