(** The normal density in doubles: proofs. *)
From Coq Require Import ZArith Reals Bool SpecFloat Lia Lra Psatz.
From Flocq Require Import Core IEEE754.BinarySingleNaN.
From Verif Require Import Base Scalar OrdLib RLib B64Lib B64Ops ConstSpec RoundLib RoundProofs RSpec RoundProofs2 BallDouble SegDouble SegPointDouble LitModel LitProofs PropLit.
From Verif Require Import ProbModel ProbDoubleModel RoundSpec ProbDoubleSpec.
Open Scope R_scope.

(** ** Arithmetic of relative errors *)
Lemma eta_u : eta64 <= u64 / 1000000.
Proof. pose proof (SegPointDouble.eta_small 1 ltac:(apply (bpow_le radix2 (-900) 0); lia)). lra. Qed.
Lemma sq_close d q : Rabs d <= 24 -> Rabs (q - d) <= 2.01 * u64 * Rabs d + eta64 -> Rabs (q * q - d * d) <= 4.03 * u64 * (d * d) + 50 * eta64.
Proof.
  intros D Q. pose proof u64_pos as [U0 _]. pose proof u_tiny as U. pose proof eta64_pos as E0. pose proof eta_u as E1. assert (U' : u64 <= 1 / 1000000000000) by lra.
  set (k := Rabs d) in *. assert (K0 : 0 <= k) by apply Rabs_pos. assert (KK : d * d = k * k) by (unfold k; rewrite <- Rabs_mult; symmetry; apply Rabs_pos_eq, Rle_0_sqr). rewrite KK.
  set (A := 2.01 * u64 * k + eta64) in *. assert (A0 : 0 <= A). { unfold A. pose proof (Rmult_le_pos u64 k ltac:(lra) K0). lra. }
  assert (S : Rabs (q + d) <= 2 * k + A). { replace (q + d) with ((q - d) + (d + d)) by ring. eapply Rle_trans; [apply Rabs_triang|]. pose proof (Rabs_triang d d). fold k in H. lra. }
  replace (q * q - d * d) with ((q - d) * (q + d)) by ring. rewrite <- KK. replace (q * q - d * d) with ((q - d) * (q + d)) by ring. rewrite Rabs_mult.
  apply Rle_trans with (A * (2 * k + A)); [apply Rmult_le_compat; auto using Rabs_pos|]. rewrite KK.
  replace (A * (2 * k + A)) with (4.02 * u64 * (k * k) + 2 * (k * eta64) + (4.0401 * (u64 * u64) * (k * k) + 4.02 * (u64 * k) * eta64 + eta64 * eta64)) by (unfold A; lra).
  assert (B1 : k * eta64 <= 24 * eta64) by (apply Rmult_le_compat_r; lra).
  assert (B2 : 4.0401 * (u64 * u64) * (k * k) <= u64 / 1000 * (k * k)) by (apply Rmult_le_compat_r; [apply Rmult_le_pos; lra|]; apply uu; lra).
  assert (B3 : u64 * k <= 1 / 1000). { apply Rle_trans with (1 / 1000000000000 * 24); [apply Rmult_le_compat; lra|lra]. }
  assert (B4 : 4.02 * (u64 * k) * eta64 <= 0.01 * eta64) by (apply Rmult_le_compat_r; lra).
  assert (B5 : eta64 * eta64 <= 0.01 * eta64) by (apply Rmult_le_compat_r; lra).
  assert (0 <= u64 * (k * k)) by (apply Rmult_le_pos; [lra|apply Rmult_le_pos; lra]). lra.
Qed.
(** The argument of the exponential. *)
Lemma arg_close d q : Rabs d <= 24 -> Rabs (q - d) <= 2.01 * u64 * Rabs d + eta64 ->
  Rabs (rnd (- rnd (q * q) / 2) + d * d / 2) <= 3.05 * u64 * (d * d) + 80 * eta64.
Proof.
  intros D Q. pose proof (sq_close d q D Q) as S. pose proof u64_pos as [U0 _]. pose proof u_tiny as U. pose proof eta64_pos as E0. assert (U' : u64 <= 1 / 1000000000000) by lra.
  pose proof (rnd_err (q * q)) as P. pose proof (rnd_err (- rnd (q * q) / 2)) as H. set (p := rnd (q * q)) in *. pose proof (Rle_0_sqr d) as Z0. unfold Rsqr in Z0. set (z := d * d) in *. set (w := q * q) in *.
  assert (UZ : 0 <= u64 * z) by (apply Rmult_le_pos; lra). assert (UE : u64 * eta64 <= 0.001 * eta64) by (apply Rmult_le_compat_r; lra). assert (UUZ : u64 * (u64 * z) <= 0.001 * (u64 * z)) by (apply Rmult_le_compat_r; lra).
  assert (AW : Rabs w <= z + (4.03 * u64 * z + 50 * eta64)). { replace w with (z + (w - z)) by ring. eapply Rle_trans; [apply Rabs_triang|]. rewrite (Rabs_pos_eq z) by lra. lra. }
  assert (UAW : u64 * Rabs w <= u64 * (z + (4.03 * u64 * z + 50 * eta64))) by (apply Rmult_le_compat_l; lra).
  assert (PZ : Rabs (p - z) <= 5.04 * (u64 * z) + 51.1 * eta64). { replace (p - z) with ((p - w) + (w - z)) by ring. eapply Rle_trans; [apply Rabs_triang|]. replace (u64 * (z + (4.03 * u64 * z + 50 * eta64))) with (u64 * z + 4.03 * (u64 * (u64 * z)) + 50 * (u64 * eta64)) in UAW by lra. lra. }
  assert (AP : Rabs (- p / 2) <= (z + 5.04 * (u64 * z) + 51.1 * eta64) / 2). { replace (- p / 2) with (- (p / 2)) by field. rewrite Rabs_Ropp. unfold Rdiv at 1. rewrite Rabs_mult, (Rabs_pos_eq (/ 2)) by lra. assert (Rabs p <= z + (5.04 * (u64 * z) + 51.1 * eta64)). { replace p with (z + (p - z)) by ring. eapply Rle_trans; [apply Rabs_triang|]. rewrite (Rabs_pos_eq z) by lra. lra. } lra. }
  assert (UAP : u64 * Rabs (- p / 2) <= u64 * ((z + 5.04 * (u64 * z) + 51.1 * eta64) / 2)) by (apply Rmult_le_compat_l; lra).
  replace (u64 * ((z + 5.04 * (u64 * z) + 51.1 * eta64) / 2)) with (u64 * z / 2 + 2.52 * (u64 * (u64 * z)) + 25.55 * (u64 * eta64)) in UAP by lra.
  replace (rnd (- p / 2) + z / 2) with ((rnd (- p / 2) - - p / 2) + - ((p - z) / 2)) by field. eapply Rle_trans; [apply Rabs_triang|]. rewrite Rabs_Ropp. unfold Rdiv at 3. rewrite Rabs_mult, (Rabs_pos_eq (/ 2)) by lra. lra.
Qed.
Lemma exp_near w : Rabs w <= 1 / 1000 -> Rabs (exp w - 1) <= 1.01 * Rabs w.
Proof.
  intros W. pose proof (exp_ineq1_le w) as L. pose proof (exp_ineq1_le (- w)) as L'. rewrite exp_Ropp in L'. pose proof (exp_pos w) as P. apply Rabs_le_inv in W as [W1 W2].
  assert (M : exp w * (1 - w) <= 1). { apply Rle_trans with (exp w * / exp w); [apply Rmult_le_compat_l; lra|]. rewrite Rinv_r by lra. lra. }
  assert (H : exp w - 1 <= w + 1.01 * (w * w)). { apply Rmult_le_reg_r with (1 - w); [lra|]. assert (0 <= w * w) by apply Rle_0_sqr. assert (0 <= w * w * (0.01 - 1.01 * w)) by (apply Rmult_le_pos; lra). lra. }
  unfold Rabs at 1 2. destruct (Rcase_abs (exp w - 1)), (Rcase_abs w).
  - lra. - lra.
  - assert (w * w <= 1 / 1000 * (- w)). { replace (w * w) with ((- w) * (- w)) by ring. apply Rmult_le_compat_r; lra. } lra.
  - assert (w * w <= 1 / 1000 * w) by (apply Rmult_le_compat_r; lra). lra.
Qed.
(** The exponential of the rounded argument, by a library within one unit. *)
Lemma exp_close z h E : 0 <= z <= 288 -> Rabs (h + z) <= 6.1 * u64 * z + 80 * eta64 -> Rabs (E - exp h) <= 2 * u64 * exp h ->
  Rabs (E - exp (- z)) <= (6.2 * z + 2.2) * u64 * exp (- z).
Proof.
  intros Z H HE. pose proof u64_pos as [U0 _]. pose proof u_tiny as U. pose proof eta64_pos as E0. pose proof eta_u as E1. assert (U' : u64 <= 1 / 1000000000000) by lra.
  set (w := h + z) in *. assert (Eh : exp h = exp (- z) * exp w) by (rewrite <- exp_plus; f_equal; unfold w; ring). rewrite Eh in HE. pose proof (exp_pos (- z)) as X0. set (X := exp (- z)) in *.
  assert (UZ0 : 0 <= u64 * z) by (apply Rmult_le_pos; lra).
  assert (UZ : u64 * z <= 1 / 1000000000000 * 288) by (apply Rmult_le_compat; lra).
  assert (W : Rabs w <= 1 / 1000) by lra. pose proof (exp_near w W) as N. assert (EW : exp w <= 1.01) by (apply Rabs_le_inv in N; lra). pose proof (exp_pos w) as EW0.
  replace (E - X) with ((E - X * exp w) + X * (exp w - 1)) by ring. eapply Rle_trans; [apply Rabs_triang|]. rewrite (Rabs_mult X), (Rabs_pos_eq X) by lra.
  assert (A : 2 * u64 * (X * exp w) <= 2 * u64 * (X * 1.01)) by (apply Rmult_le_compat_l; [lra|]; apply Rmult_le_compat_l; lra).
  assert (B : X * Rabs (exp w - 1) <= X * (6.161 * (u64 * z) + 0.001 * u64)) by (apply Rmult_le_compat_l; lra).
  assert (0 <= X * (u64 * z)) by (apply Rmult_le_pos; lra). assert (0 <= X * u64) by (apply Rmult_le_pos; lra).
  replace ((6.2 * z + 2.2) * u64 * X) with (6.2 * (X * (u64 * z)) + 2.2 * (X * u64)) by lra. lra.
Qed.
(** A quotient of two nearby numbers. *)
Lemma quot_close X D0 E D k : 0 < X -> 0 < D0 -> 0 <= k <= 2000 -> Rabs (E - X) <= k * u64 * X -> Rabs (D - D0) <= 4.2 * u64 * D0 ->
  Rabs (E / D - X / D0) <= (1.001 * k + 4.3) * u64 * (X / D0).
Proof.
  intros X0 P0 K HE HD. pose proof u64_pos as [U0 _]. pose proof u_tiny as U. assert (U' : u64 <= 1 / 1000000000000) by lra.
  assert (UD : u64 * D0 <= 1 / 1000000000000 * D0) by (apply Rmult_le_compat_r; lra).
  assert (DP : D0 * (1 - 4.2 * u64) <= D) by (apply Rabs_le_inv in HD; lra). assert (D1 : 0 < D) by (apply Rabs_le_inv in HD; lra).
  replace (E / D - X / D0) with ((E - X + X / D0 * (D0 - D)) / D) by (field; lra). unfold Rdiv at 1. rewrite Rabs_mult, (Rabs_pos_eq (/ D)) by (left; now apply Rinv_0_lt_compat).
  apply Rmult_le_reg_r with D; [exact D1|]. rewrite Rmult_assoc, Rinv_l, Rmult_1_r by lra.
  assert (Q0 : 0 < X / D0) by (apply Rdiv_lt_0_compat; lra). set (Q := X / D0) in *. assert (XQ : X = Q * D0) by (unfold Q; field; lra).
  eapply Rle_trans; [apply Rabs_triang|]. rewrite Rabs_mult, (Rabs_pos_eq Q) by lra. rewrite (Rabs_minus_sym D0 D).
  assert (A : Q * Rabs (D - D0) <= Q * (4.2 * u64 * D0)) by (apply Rmult_le_compat_l; lra).
  apply Rle_trans with ((k + 4.2) * u64 * (Q * D0)); [rewrite XQ in HE; rewrite XQ; lra|].
  apply Rle_trans with ((1.001 * k + 4.3) * u64 * Q * (D0 * (1 - 4.2 * u64))).
  - replace ((k + 4.2) * u64 * (Q * D0)) with ((u64 * (Q * D0)) * (k + 4.2)) by ring. replace ((1.001 * k + 4.3) * u64 * Q * (D0 * (1 - 4.2 * u64))) with ((u64 * (Q * D0)) * ((1.001 * k + 4.3) * (1 - 4.2 * u64))) by ring.
    apply Rmult_le_compat_l; [apply Rmult_le_pos; [lra|apply Rmult_le_pos; lra]|]. assert (u64 * k <= 1 / 1000000000000 * k) by (apply Rmult_le_compat_r; lra). lra.
  - apply Rmult_le_compat_l; [|exact DP]. apply Rmult_le_pos; [apply Rmult_le_pos|]; lra.
Qed.
Lemma rnd_close x y k : 0 < y -> bpow radix2 (-1000) <= y -> 0 <= k <= 5000 -> Rabs (x - y) <= k * u64 * y -> Rabs (rnd x - y) <= (k + 1.01) * u64 * y.
Proof.
  intros Y0 Y K H. pose proof u64_pos as [U0 _]. pose proof u_tiny as U. assert (U' : u64 <= 1 / 1000000000000) by lra. assert (UY : 0 <= u64 * y) by (apply Rmult_le_pos; lra).
  assert (KU : k * u64 <= 5000 * (1 / 1000000000000)) by (apply Rmult_le_compat; lra). assert (KY : k * u64 * y <= 0.001 * y) by (apply Rmult_le_compat_r; lra).
  assert (X : y / 2 <= x <= 1.001 * y) by (apply Rabs_le_inv in H; lra). assert (N : Rabs (rnd x - x) <= u64 * Rabs x).
  { apply rnd_rel_err. rewrite Rabs_pos_eq by lra. apply Rle_trans with (y / 2); [|lra]. apply Rle_trans with (bpow radix2 (-1000) / 2); [|lra]. replace (bpow radix2 (-1000) / 2) with (bpow radix2 (-1001)); [apply bpow_le; lia|]. change (-1000)%Z with (-1001 + 1)%Z. rewrite (bpow_plus _ _ 1). change (bpow radix2 1) with 2. field. }
  rewrite (Rabs_pos_eq x) in N by lra. assert (u64 * x <= u64 * (y + k * u64 * y)) by (apply Rmult_le_compat_l; [lra|]; apply Rabs_le_inv in H; lra).
  assert (u64 * (k * u64 * y) <= 0.01 * (u64 * y)). { replace (u64 * (k * u64 * y)) with (k * u64 * (u64 * y)) by ring. apply Rmult_le_compat_r; lra. }
  replace (rnd x - y) with ((rnd x - x) + (x - y)) by ring. eapply Rle_trans; [apply Rabs_triang|]. lra.
Qed.
(** ** The constants *)
Lemma near_const c v a m : within v a -> c = S754_finite false m (-52) -> 1 <= v ->
  (Z.abs (Zpos m * 10 ^ 52 * 2 - a * 2 ^ 53) + 2 ^ 53 <= 10 ^ 52)%Z -> Rabs (val c - v) <= u64 * v.
Proof.
  intros W -> V Hz. assert (T : 0 < IZR (10 ^ 52)) by (apply IZR_lt; reflexivity). assert (P53 : bpow radix2 (-53) = / IZR (2 ^ 53)) by reflexivity.
  assert (Ev : val (S754_finite false m (-52)) = IZR (Zpos m) * 2 / IZR (2 ^ 53)). { unfold val, SF2R, Defs.F2R. cbn [Defs.Fnum Defs.Fexp SpecFloat.cond_Zopp]. change (bpow radix2 (-52)) with (/ IZR (2 ^ 52)). change (2 ^ 53)%Z with (2 * 2 ^ 52)%Z. rewrite mult_IZR. field. apply not_0_IZR. discriminate. }
  rewrite Ev. apply Rle_trans with u64; [|pose proof u64_pos; replace u64 with (u64 * 1) at 1 by ring; apply Rmult_le_compat_l; lra]. unfold u64. rewrite P53.
  unfold within in W. rewrite ten52 in W. rewrite plus_IZR in W. set (P := IZR (2 ^ 53)) in *. assert (P0 : 0 < P) by (apply IZR_lt; reflexivity). set (t := IZR (10 ^ 52)) in *.
  assert (Hb : - (t - P) <= IZR (Zpos m) * t * 2 - IZR a * P <= t - P).
  { unfold t, P. rewrite <- !mult_IZR, <- !minus_IZR, <- opp_IZR. split; apply IZR_le; lia. }
  destruct W as [W1 W2]. apply (Rmult_le_compat_r t) in W1; [|lra]. apply (Rmult_le_compat_r t) in W2; [|lra]. unfold Rdiv in W1, W2. rewrite Rmult_assoc, Rinv_l, Rmult_1_r in W1, W2 by lra.
  apply (Rmult_le_compat_r P) in W1; [|lra]. apply (Rmult_le_compat_r P) in W2; [|lra].
  assert (G : Rabs (IZR (Zpos m) * 2 / P - v) * (P * t) <= t).
  { rewrite <- (Rabs_pos_eq (P * t)) by (apply Rmult_le_pos; lra). rewrite <- Rabs_mult. replace ((IZR (Zpos m) * 2 / P - v) * (P * t)) with (IZR (Zpos m) * t * 2 - v * t * P) by (field; lra). apply Rabs_le. lra. }
  apply Rmult_le_reg_r with (P * t); [apply Rmult_lt_0_compat; lra|]. replace (/ P * (P * t)) with t by (field; lra). exact G.
Qed.
Lemma sqrt_pi_ok : fl (k_sqrt_pi double_constants) /\ Rabs (val (k_sqrt_pi double_constants) - sqrt PI) <= u64 * sqrt PI.
Proof.
  split; [split; vm_compute; reflexivity|]. eapply near_const; [exact sqrt_pi_within|vm_compute; reflexivity| |vm_compute; discriminate].
  rewrite <- sqrt_1. apply sqrt_le_1_alt. pose proof PI2_1. lra.
Qed.
Lemma sqrt2_ok : fl b64_sqrt2 /\ Rabs (val b64_sqrt2 - sqrt 2) <= u64 * sqrt 2.
Proof.
  split; [split; vm_compute; reflexivity|]. eapply near_const; [exact sqrt2_within|vm_compute; reflexivity| |vm_compute; discriminate].
  rewrite <- sqrt_1. apply sqrt_le_1_alt. lra.
Qed.
Lemma root_bounds : 2 <= sqrt (2 * PI) <= 3.
Proof.
  pose proof PI2_1 as A. pose proof PI_4 as B. split.
  - replace 2 with (sqrt (2 * 2)) at 1 by (apply sqrt_square; lra). apply sqrt_le_1_alt. lra.
  - replace 3 with (sqrt (3 * 3)) by (apply sqrt_square; lra). apply sqrt_le_1_alt. lra.
Qed.
(** The divisor. *)
Lemma divisor_ok m s : fl s -> bpow radix2 (-300) <= Rabs (val s) <= bpow radix2 300 ->
  let D := nmul (Num := B64 m) (nabs (Num := B64 m) s) (nmul (Num := B64 m) (k_sqrt_pi double_constants) b64_sqrt2) in
  fl D /\ Rabs (val D - Rabs (val s) * sqrt (2 * PI)) <= 4.2 * u64 * (Rabs (val s) * sqrt (2 * PI)).
Proof.
  intros Fs Bs D. destruct sqrt_pi_ok as [Fp Hp]. destruct sqrt2_ok as [F2 H2]. destruct root_bounds as [R1 R2]. pose proof u64_pos as [U0 _]. pose proof u_tiny as U. assert (U' : u64 <= 1 / 1000000000000) by lra.
  assert (PP : 0 < PI) by apply PI_RGT_0. assert (ER : sqrt (2 * PI) = sqrt PI * sqrt 2) by (rewrite sqrt_mult by lra; ring). set (r := sqrt (2 * PI)) in *.
  assert (C : Rabs (val (k_sqrt_pi double_constants) * val b64_sqrt2 - r) <= 2.001 * u64 * r).
  { rewrite ER. set (x := val (k_sqrt_pi double_constants)) in *. set (y := val b64_sqrt2) in *. assert (S1 : 0 < sqrt PI) by now apply sqrt_lt_R0. assert (S2 : 0 < sqrt 2) by (apply sqrt_lt_R0; lra). set (p := sqrt PI) in *. set (q := sqrt 2) in *.
    replace (x * y - p * q) with ((x - p) * y + p * (y - q)) by ring. eapply Rle_trans; [apply Rabs_triang|]. rewrite !Rabs_mult, (Rabs_pos_eq p) by lra.
    assert (AY : Rabs y <= q + u64 * q). { replace y with (q + (y - q)) by ring. eapply Rle_trans; [apply Rabs_triang|]. rewrite (Rabs_pos_eq q) by lra. lra. }
    assert (A1 : Rabs (x - p) * Rabs y <= (u64 * p) * (q + u64 * q)) by (apply Rmult_le_compat; auto using Rabs_pos). assert (A2 : p * Rabs (y - q) <= p * (u64 * q)) by (apply Rmult_le_compat_l; lra).
    assert (PQ : 0 <= p * q) by (apply Rmult_le_pos; lra). replace (u64 * p * (q + u64 * q)) with ((u64 + 1 * (u64 * u64)) * (p * q)) in A1 by ring. pose proof (uu 1 ltac:(lra)) as V. assert ((u64 + 1 * (u64 * u64)) * (p * q) <= (1.001 * u64) * (p * q)) by (apply Rmult_le_compat_r; lra). lra. }
  assert (UR : 0 <= u64 * r) by (apply Rmult_le_pos; lra). assert (UR' : u64 * r <= 1 / 1000000000000 * 3) by (apply Rmult_le_compat; lra).
  assert (CB : Rabs (val (k_sqrt_pi double_constants) * val b64_sqrt2) <= 4). { replace (val (k_sqrt_pi double_constants) * val b64_sqrt2) with (r + (val (k_sqrt_pi double_constants) * val b64_sqrt2 - r)) by ring. eapply Rle_trans; [apply Rabs_triang|]. rewrite (Rabs_pos_eq r) by lra. lra. }
  assert (B4 : 4 <= big) by (apply (bpow_le radix2 2 1023); lia). destruct (mul_ok _ _ Fp F2 ltac:(lra)) as [Fc Ec].
  assert (B1000 : bpow radix2 (-1000) <= 1) by (apply (bpow_le radix2 (-1000) 0); lia).
  pose proof (rnd_close _ r 2.001 ltac:(lra) ltac:(lra) ltac:(lra) C) as RC. rewrite <- Ec in RC. destruct (abs_ok s Fs) as [Fa Ea].
  set (c := SFmul prec64 emax64 (k_sqrt_pi double_constants) b64_sqrt2) in *. set (t := Rabs (val s)) in *. assert (T0 : 0 < t) by (pose proof (bpow_gt_0 radix2 (-300)); lra).
  assert (K : Rabs (t * val c - t * r) <= 3.011 * u64 * (t * r)). { replace (t * val c - t * r) with (t * (val c - r)) by ring. rewrite Rabs_mult, (Rabs_pos_eq t) by lra. replace (3.011 * u64 * (t * r)) with (t * (3.011 * u64 * r)) by lra. apply Rmult_le_compat_l; lra. }
  assert (CB' : Rabs (val c) <= 4). { replace (val c) with (r + (val c - r)) by ring. eapply Rle_trans; [apply Rabs_triang|]. rewrite (Rabs_pos_eq r) by lra. lra. }
  assert (BG : Rabs (val (SFabs s) * val c) <= big). { rewrite Ea, Rabs_mult, (Rabs_pos_eq t) by lra. apply Rle_trans with (bpow radix2 300 * bpow radix2 2); [apply Rmult_le_compat; try apply Rabs_pos; try lra; exact CB'|]. rewrite <- bpow_plus. apply bpow_le. lia. }
  destruct (mul_ok _ _ Fa Fc BG) as [FD ED]. split; [exact FD|]. change (val D) with (val (SFmul prec64 emax64 (SFabs s) c)). rewrite ED, Ea. fold t.
  assert (TR : t <= t * r) by (rewrite <- (Rmult_1_r t) at 1; apply Rmult_le_compat_l; lra).
  assert (LB : bpow radix2 (-1000) <= t * r) by (apply Rle_trans with t; [|lra]; apply Rle_trans with (bpow radix2 (-300)); [apply bpow_le; lia|lra]).
  pose proof (rnd_close _ (t * r) 3.011 ltac:(lra) LB ltac:(lra) K) as RD. eapply Rle_trans; [exact RD|]. apply Rmult_le_compat_r; [lra|]. lra.
Qed.
(** The normalised difference. *)
Lemma diff_ok m mu s x : fl mu -> fl s -> fl x -> bpow radix2 (-300) <= Rabs (val s) <= bpow radix2 300 -> Rabs (val mu - val x) <= 24 * Rabs (val s) ->
  let q := ndiv (Num := B64 m) (nsub (Num := B64 m) mu x) s in let d := (val mu - val x) / val s in
  fl q /\ Rabs d <= 24 /\ Rabs (val q - d) <= 2.01 * u64 * Rabs d + eta64.
Proof.
  intros Fm Fs Fx Bs Bd q d. pose proof u64_pos as [U0 _]. pose proof u_tiny as U. assert (U' : u64 <= 1 / 1000000000000) by lra. set (t := Rabs (val s)) in *. assert (T0 : 0 < t) by (pose proof (bpow_gt_0 radix2 (-300)); lra).
  assert (S0 : val s <> 0) by (intros Z; unfold t in T0; rewrite Z, Rabs_R0 in T0; lra).
  assert (B : Rabs (val mu - val x) <= bpow radix2 305). { eapply Rle_trans; [exact Bd|]. apply Rle_trans with (bpow radix2 5 * bpow radix2 300); [apply Rmult_le_compat; try lra; change (bpow radix2 5) with 32; lra|]. rewrite <- bpow_plus. apply bpow_le. lia. }
  assert (BB : bpow radix2 305 <= big) by (apply bpow_le; lia). destruct (sub_ok mu x Fm Fx ltac:(lra)) as [F1 E1].
  assert (D24 : Rabs d <= 24). { unfold d, Rdiv. rewrite Rabs_mult, Rabs_inv by auto. fold t. apply Rmult_le_reg_r with t; auto. rewrite Rmult_assoc, Rinv_l, Rmult_1_r by lra. exact Bd. }
  assert (N1 : Rabs (val (SFsub prec64 emax64 mu x) - (val mu - val x)) <= u64 * Rabs (val mu - val x)).
  { rewrite E1. unfold Rminus. apply rnd_add_err; [now apply fl_format|]. apply generic_format_opp. now apply fl_format. }
  set (s1 := SFsub prec64 emax64 mu x) in *. assert (N2 : Rabs (val s1 / val s - d) <= u64 * Rabs d).
  { unfold d. replace (val s1 / val s - (val mu - val x) / val s) with ((val s1 - (val mu - val x)) * / val s) by (field; auto). unfold Rdiv. rewrite !Rabs_mult. rewrite <- Rmult_assoc. apply Rmult_le_compat_r; [apply Rabs_pos|exact N1]. }
  assert (A2 : Rabs (val s1 / val s) <= Rabs d + u64 * Rabs d). { replace (val s1 / val s) with (d + (val s1 / val s - d)) by ring. eapply Rle_trans; [apply Rabs_triang|]. lra. }
  pose proof (Rabs_pos d) as P. assert (UD : u64 * Rabs d <= 0.001 * Rabs d) by (apply Rmult_le_compat_r; lra).
  assert (B32 : 32 <= big) by (apply (bpow_le radix2 5 1023); lia). destruct (div_ok s1 s F1 Fs S0 ltac:(lra)) as [Fq Eq]. split; [exact Fq|]. split; [exact D24|]. change (val q) with (val (SFdiv prec64 emax64 s1 s)). rewrite Eq.
  pose proof (rnd_err (val s1 / val s)) as N3. assert (UA : u64 * Rabs (val s1 / val s) <= u64 * (Rabs d + u64 * Rabs d)) by (apply Rmult_le_compat_l; lra).
  assert (UUD : u64 * (u64 * Rabs d) <= 0.001 * (u64 * Rabs d)) by (apply Rmult_le_compat_r; [apply Rmult_le_pos; lra|lra]).
  assert (0 <= u64 * Rabs d) by (apply Rmult_le_pos; lra). replace (rnd (val s1 / val s) - d) with ((rnd (val s1 / val s) - val s1 / val s) + (val s1 / val s - d)) by ring. eapply Rle_trans; [apply Rabs_triang|]. lra.
Qed.
(** ** The density *)
Lemma exp_low z : 0 <= z <= 288 -> bpow radix2 (-576) <= exp (- z) <= 1.
Proof.
  intros [Z0 Z1]. split.
  - apply Rle_trans with (exp (- 288)).
    + assert (E : forall k, exp (- INR k) = / exp 1 ^ k). { induction k as [|k IH]; [simpl; rewrite Ropp_0, exp_0; lra|]. rewrite S_INR. replace (- (INR k + 1)) with (- INR k + - (1)) by ring. rewrite exp_plus, IH, exp_Ropp. simpl. field. split; [apply pow_nonzero|]; pose proof (exp_pos 1); lra. }
      replace (-288) with (- INR 288) by (rewrite INR_IZR_INZ; reflexivity). rewrite E. change (-576)%Z with (Z.opp 576). rewrite bpow_opp. apply Rinv_le; [apply pow_lt, exp_pos|]. apply Rle_trans with (4 ^ 288).
      * apply pow_incr. pose proof (exp_pos 1). pose proof exp_le_3. lra.
      * right. change 4 with (IZR (radix_val radix2 * radix_val radix2)). rewrite mult_IZR. change 576%Z with (Z.of_nat (288 + 288)). rewrite bpow_powerRZ. rewrite <- pow_powerRZ. rewrite pow_add, Rpow_mult_distr. reflexivity.
    + destruct Z1 as [L| ->]; [left; apply exp_increasing; lra|right; reflexivity].
  - rewrite <- exp_0. destruct Z0 as [L|<-]; [left; apply exp_increasing; lra|rewrite Ropp_0; right; reflexivity].
Qed.
Theorem gaussian_close m (e l : spec_float -> spec_float) mu s x :
  (forall h, finite_double h -> -300 <= real h <= 0 -> exp_accurate_at e h) ->
  fl mu -> fl s -> fl x -> bpow radix2 (-300) <= Rabs (val s) <= bpow radix2 300 -> Rabs (val mu - val x) <= 24 * Rabs (val s) ->
  let d := (val mu - val x) / val s in let g := exp (- (d * d / 2)) / (Rabs (val s) * sqrt (2 * PI)) in
  exists r, gaussian (H := B64 m) (H0 := Btrans e l) mu s x = Ret r /\ fl r /\ Rabs (val r - g) <= (4 * (d * d) + 8) * u64 * g.
Proof.
  intros He Fm Fs Fx Bs Bd d g. pose proof u64_pos as [U0 _]. pose proof u_tiny as U. assert (U' : u64 <= 1 / 1000000000000) by lra. pose proof eta64_pos as E0. pose proof eta_u as E1.
  destruct (diff_ok m mu s x Fm Fs Fx Bs Bd) as (Fq & D24 & Hq). fold d in D24, Hq. destruct (divisor_ok m s Fs Bs) as [FD HD]. destruct root_bounds as [R1 R2].
  set (q := ndiv (Num := B64 m) (nsub (Num := B64 m) mu x) s) in *. set (D := nmul (Num := B64 m) (nabs (Num := B64 m) s) _) in *.
  assert (T0 : 0 < Rabs (val s)) by (pose proof (bpow_gt_0 radix2 (-300)); lra). assert (S0 : val s <> 0) by (intros Z; rewrite Z, Rabs_R0 in T0; lra).
  pose proof (Rle_0_sqr d) as Z0. unfold Rsqr in Z0. assert (Z1 : d * d <= 576). { replace 576 with (24 * 24) by lra. rewrite <- (Rabs_pos_eq (d * d)) by lra. rewrite Rabs_mult. apply Rmult_le_compat; auto using Rabs_pos. }
  pose proof (sq_close d (val q) D24 Hq) as SQ. pose proof (arg_close d (val q) D24 Hq) as AR. assert (UZ : u64 * (d * d) <= 1 / 1000000000000 * 576) by (apply Rmult_le_compat; lra). assert (UZ0 : 0 <= u64 * (d * d)) by (apply Rmult_le_pos; lra).
  assert (QB : Rabs (val q * val q) <= 600). { replace (val q * val q) with (d * d + (val q * val q - d * d)) by ring. eapply Rle_trans; [apply Rabs_triang|]. rewrite (Rabs_pos_eq (d * d)) by lra. lra. }
  assert (B1024 : 1024 <= big) by (apply (bpow_le radix2 10 1023); lia). destruct (mul_ok q q Fq Fq ltac:(lra)) as [Fp Ep]. destruct (opp_ok _ Fp) as [Fo Eo].
  assert (F2 : fl (b64_ofZ 2)) by (split; vm_compute; reflexivity). assert (V2 : val (b64_ofZ 2) = 2).
  { unfold val. let e := eval vm_compute in (b64_ofZ 2) in change (b64_ofZ 2) with e. unfold SF2R, Defs.F2R. cbn [Defs.Fnum Defs.Fexp SpecFloat.cond_Zopp]. unfold bpow. simpl. lra. }
  assert (PB : 0 <= rnd (val q * val q) <= 1024). { split; [apply rnd_nonneg, Rle_0_sqr|]. assert (X : Rabs (rnd (val q * val q)) <= bpow radix2 10) by (apply rnd_abs_le; [lia|]; change (bpow radix2 10) with 1024; lra). change (bpow radix2 10) with 1024 in X. apply Rabs_le_inv in X. lra. }
  assert (QD : Rabs (val (SFopp (SFmul prec64 emax64 q q)) / val (b64_ofZ 2)) <= big). { rewrite Eo, Ep, V2. apply Rle_trans with 1024; [apply Rabs_le; lra|exact B1024]. }
  destruct (div_ok _ _ Fo F2 ltac:(rewrite V2; lra) QD) as [Fh Eh]. rewrite Eo, Ep, V2 in Eh. set (h := SFdiv prec64 emax64 (SFopp (SFmul prec64 emax64 q q)) (b64_ofZ 2)) in *.
  rewrite <- Eh in AR. assert (H0 : val h <= 0). { rewrite Eh. replace (- rnd (val q * val q) / 2) with (- (rnd (val q * val q) / 2)) by field. rewrite rnd_opp. assert (0 <= rnd (rnd (val q * val q) / 2)) by (apply rnd_nonneg; lra). lra. }
  assert (H1 : -300 <= val h) by (apply Rabs_le_inv in AR; lra). destruct (He h (proj1 (fl_iff h) Fh) (conj H1 H0)) as [FE HE]. apply fl_iff in FE. change (real (e h)) with (val (e h)) in HE. change (real h) with (val h) in HE. change half_ulp with u64 in HE.
  set (z := d * d / 2) in *. assert (Zb : 0 <= z <= 288) by (unfold z; lra). assert (AR' : Rabs (val h + z) <= 6.1 * u64 * z + 80 * eta64) by (unfold z in *; lra).
  pose proof (exp_close z (val h) (val (e h)) Zb AR' HE) as XE. destruct (exp_low z Zb) as [X1 X2]. assert (X0 : 0 < exp (- z)) by apply exp_pos. set (X := exp (- z)) in *.
  assert (D0 : 0 < Rabs (val s) * sqrt (2 * PI)) by (apply Rmult_lt_0_compat; lra). set (D' := Rabs (val s) * sqrt (2 * PI)) in *.
  pose proof (quot_close X D' (val (e h)) (val D) (6.2 * z + 2.2) X0 D0 ltac:(lra) XE HD) as Q. fold g in Q.
  assert (G0 : 0 < g) by (apply Rdiv_lt_0_compat; lra). assert (L900 : bpow radix2 (-900) <= g).
  { unfold g. apply Rmult_le_reg_r with D'; auto. unfold Rdiv. rewrite Rmult_assoc, Rinv_l, Rmult_1_r by lra. apply Rle_trans with (bpow radix2 (-900) * (bpow radix2 300 * bpow radix2 2)).
    - apply Rmult_le_compat_l; [apply bpow_ge_0|]. unfold D'. apply Rmult_le_compat; try lra. change (bpow radix2 2) with 4. lra.
    - rewrite <- !bpow_plus. eapply Rle_trans; [|exact X1]. apply bpow_le. lia. }
  assert (L1000 : bpow radix2 (-1000) <= g) by (eapply Rle_trans; [|exact L900]; apply bpow_le; lia).
  set (K := 1.001 * (6.2 * z + 2.2) + 4.3) in *. assert (KB : 0 <= K <= 2000) by (unfold K; lra). pose proof (rnd_close _ g K G0 L1000 ltac:(lra) Q) as RR.
  assert (UD : u64 * D' <= 1 / 1000000000000 * D') by (apply Rmult_le_compat_r; lra). assert (Dv : D' / 2 <= val D) by (apply Rabs_le_inv in HD; lra). assert (Dn : val D <> 0) by lra.
  assert (GU : g <= bpow radix2 300). { unfold g. apply Rmult_le_reg_r with D'; auto. unfold Rdiv. rewrite Rmult_assoc, Rinv_l, Rmult_1_r by lra. apply Rle_trans with (bpow radix2 300 * bpow radix2 (-300)).
    - rewrite <- bpow_plus. change (bpow radix2 (300 + -300)) with 1. exact X2.
    - apply Rmult_le_compat_l; [apply bpow_ge_0|]. unfold D'. rewrite <- (Rmult_1_r (bpow radix2 (-300))). apply Rmult_le_compat; try lra. apply bpow_ge_0. }
  assert (KU : K * u64 <= 2000 * (1 / 1000000000000)) by (apply Rmult_le_compat; lra). assert (KG : K * u64 * g <= 0.001 * g) by (apply Rmult_le_compat_r; lra).
  assert (QB' : Rabs (val (e h) / val D) <= big). { apply Rle_trans with (bpow radix2 301); [|apply bpow_le; lia]. replace (val (e h) / val D) with (g + (val (e h) / val D - g)) by ring. eapply Rle_trans; [apply Rabs_triang|]. rewrite (Rabs_pos_eq g) by lra. change 301%Z with (1 + 300)%Z. rewrite bpow_plus. change (bpow radix2 1) with 2. lra. }
  destruct (div_ok _ _ FE FD Dn QB') as [Fr Er]. exists (SFdiv prec64 emax64 (e h) D). split; [|split; [exact Fr|]].
  - unfold gaussian. assert (ZE : neqb (Num := B64 m) s (n0 (H := B64 m)) = false).
    { change (neqb (Num := B64 m) s (n0 (H := B64 m))) with (SFeqb s (b64_ofZ 0)). rewrite eqb_ok; [|exact Fs|split; vm_compute; reflexivity]. change (val (b64_ofZ 0)) with 0. now apply Req_bool_false. }
    rewrite ZE. reflexivity.
  - rewrite Er. eapply Rle_trans; [exact RR|]. apply Rmult_le_compat_r; [lra|]. apply Rmult_le_compat_r; [lra|]. unfold K, z. lra.
Qed.
