From Coq Require Import ZArith Reals Bool SpecFloat Lia Lra List.
From Flocq Require Import Core IEEE754.BinarySingleNaN.
From Verif Require Import Base Scalar OrdLib RLib B64Lib B64Ops FloatOps RoundLib RSpec ConstModel ConstProofs VecModel RotModel VecSpec ConstSpec RoundSpec BallProofs VecProofs4 RoundProofs RoundProofs2 RoundProofs3 RoundProofs4.
Import ListNotations.
Open Scope R_scope.

Lemma rel_step x y X k h : 0 <= k -> k * u64 <= 1 -> Rabs (x - X) <= k * u64 * Rabs X -> Rabs (y - x) <= u64 * Rabs x + h ->
  Rabs (y - X) <= (k + 2) * u64 * Rabs X + h.
Proof.
  intros K K1 H1 H2. pose proof u64_pos as [U _]. pose proof (Rabs_pos X).
  assert (A : Rabs x <= 2 * Rabs X).
  { pose proof (Rabs_triang (x - X) X) as P. replace (x - X + X) with x in P by ring. nra. }
  pose proof (Rabs_triang (y - x) (x - X)) as P. replace (y - x + (x - X)) with (y - X) in P by ring.
  assert (u64 * Rabs x <= u64 * (2 * Rabs X)) by (apply Rmult_le_compat_l; lra). lra.
Qed.
Lemma inv_rel x L k : 0 < L -> 0 <= k -> k * u64 <= / 2 -> k * (k + 1) * u64 <= 1 -> Rabs (x - L) <= k * u64 * L ->
  0 < x /\ Rabs (/ x - / L) <= (k + 1) * u64 * / L.
Proof.
  intros L0 K K1 K2 H. pose proof u64_pos as [U _]. pose proof (Rabs_le_inv _ _ H) as [H1 H2].
  assert (KU : 0 <= k * u64) by (apply Rmult_le_pos; lra).
  assert (X0 : (1 - k * u64) * L <= x) by lra.
  assert (X1 : 0 < x) by (assert (0 < (1 - k * u64) * L) by (apply Rmult_lt_0_compat; lra); lra).
  split; auto.
  replace (/ x - / L) with ((L - x) * / (x * L)) by (field; lra).
  rewrite Rabs_mult, (Rabs_minus_sym L x), (Rabs_pos_eq (/ (x * L))).
  2:{ apply Rlt_le, Rinv_0_lt_compat, Rmult_lt_0_compat; lra. }
  apply Rmult_le_reg_r with (x * L); [apply Rmult_lt_0_compat; lra|].
  rewrite Rmult_assoc, Rinv_l by (apply Rgt_not_eq, Rmult_lt_0_compat; lra).
  replace ((k + 1) * u64 * / L * (x * L)) with ((k + 1) * u64 * x) by (field; lra). rewrite Rmult_1_r.
  eapply Rle_trans; [exact H|].
  apply Rle_trans with ((k + 1) * u64 * ((1 - k * u64) * L)); [|apply Rmult_le_compat_l; [apply Rmult_le_pos; lra|exact X0]].
  replace ((k + 1) * u64 * ((1 - k * u64) * L)) with (k * u64 * L + u64 * L * (1 - k * (k + 1) * u64)) by ring.
  assert (0 <= u64 * L * (1 - k * (k + 1) * u64)) by (repeat apply Rmult_le_pos; lra). lra.
Qed.
Lemma kk_small n k : (Z.of_nat n <= 2 ^ 26)%Z -> (k <= 50)%nat -> (INR n + INR k) * (INR n + INR k + 1) * u64 <= 1.
Proof.
  intros L K. assert (N : INR n <= 2 ^ 26).
  { rewrite INR_IZR_INZ. apply IZR_le in L. rewrite (pow_IZR 2 26). exact L. }
  assert (Kb : INR k <= 50) by (apply le_INR in K; replace (INR 50) with 50 in K by (simpl; lra); exact K).
  assert (U : u64 = / 2 ^ 53) by (unfold u64, bpow; simpl; lra).
  pose proof (pos_INR n). pose proof (pos_INR k).
  apply Rle_trans with ((2 ^ 26 + 50) * (2 ^ 26 + 51) * / 2 ^ 53).
  - rewrite U. apply Rmult_le_compat_r; [apply Rlt_le, Rinv_0_lt_compat, pow_lt; lra|]. apply Rmult_le_compat; lra.
  - simpl. lra.
Qed.
Lemma norm_mono n a b : (forall i, (i < n)%nat -> Rabs (a i) <= b i) -> norm n a <= norm n b.
Proof.
  intros H. unfold norm. apply sqrt_le_1_alt. apply Rsum_le. intros i Hi. specialize (H i Hi).
  pose proof (Rabs_pos (a i)). rewrite <- (Rabs_pos_eq (a i * a i)) by apply Rle_0_sqr. rewrite Rabs_mult. apply Rmult_le_compat; lra.
Qed.
Lemma norm_const n h : 0 <= h -> norm n (fun _ => h) <= INR n * h.
Proof.
  intros H. unfold norm, norm2, inner. rewrite Rsum_const. pose proof (pos_INR n).
  destruct n as [|n]; [simpl; rewrite !Rmult_0_l, sqrt_0; lra|]. rewrite S_INR in *.
  rewrite <- (sqrt_square ((INR n + 1) * h)) by (apply Rmult_le_pos; lra). apply sqrt_le_1_alt.
  pose proof (pos_INR n). assert (0 <= h * h) by nra. nra.
Qed.
Lemma norm_scal_abs n k a : norm n (fun i => k * a i) = Rabs k * norm n a.
Proof.
  unfold norm. rewrite norm2_scal. rewrite sqrt_mult by (try apply norm2_nonneg; apply Rle_0_sqr). f_equal. apply (sqrt_Rsqr_abs k).
Qed.
Lemma norm_diff n a b : Rabs (norm n a - norm n b) <= norm n (fun i => a i - b i).
Proof.
  pose proof (norm_triangle n (fun i => a i - b i) b) as P. pose proof (norm_triangle n (fun i => b i - a i) a) as Q.
  assert (E1 : norm n (fun i => a i - b i + b i) = norm n a) by (unfold norm; f_equal; apply inner_ext; intros; ring).
  assert (E2 : norm n (fun i => b i - a i + a i) = norm n b) by (unfold norm; f_equal; apply inner_ext; intros; ring).
  assert (E3 : norm n (fun i => b i - a i) = norm n (fun i => a i - b i)) by (unfold norm; f_equal; apply Rsum_ext; intros; ring).
  apply Rabs_le. lra.
Qed.

Section B.
Variable m : libm.

Definition unit_lo : R := bpow radix2 (-400).
Definition unit_hi : R := bpow radix2 400.

Lemma normalize_ok n a c : (Z.of_nat n <= 2 ^ 26)%Z -> doubles n a -> fl c ->
  low <= norm2 n (rco a) <= big / 2 -> unit_lo <= Rabs (val c) <= unit_hi ->
  let w := normalize (H := B64 m) n a c in
  doubles n w /\
  (forall i, (i < n)%nat -> Rabs (rco w i - val c / norm n (rco a) * rco a i) <= (INR n + 10) * u64 * Rabs (val c / norm n (rco a) * rco a i) + eta64) /\
  Rabs (norm n (rco w) - Rabs (val c)) <= (INR n + 11) * u64 * Rabs (val c).
Proof.
  intros Ln Da Fc [Lo Hi] [Cl Ch] w.
  destruct (mag_ok m n a Ln Da Hi) as (Fm & Pm & Em). specialize (Em Lo).
  set (N := norm n (rco a)) in *. set (mg := mag (H := B64 m) n a) in *.
  assert (N2 : N * N = norm2 n (rco a)) by apply norm_sqr.
  pose proof low_pos. pose proof (pos_INR n) as I0. pose proof u64_pos as [U U4].
  assert (N0 : 0 < N) by (unfold N, norm; apply sqrt_lt_R0; lra).
  pose proof (kk_small n 5 Ln ltac:(lia)) as KK. pose proof (n_u_small n 5 Ln ltac:(lia)) as KU.
  pose proof (n_u_small n 10 Ln ltac:(lia)) as KU10.
  replace (INR 5) with 5 in * by (simpl; lra). replace (INR 10) with 10 in * by (simpl; lra).
  assert (S26 : / 2 ^ 26 <= / 4) by (simpl; lra).
  destruct (inv_rel (val mg) N (INR n + 5) N0 ltac:(lra) ltac:(lra) KK Em) as [Mp Mi].
  (* bounds on N *)
  assert (NLo : bpow radix2 (-495) <= N).
  { unfold N, norm. rewrite <- (sqrt_square (bpow radix2 (-495))) by apply bpow_ge_0. apply sqrt_le_1_alt. rewrite <- bpow_plus. exact Lo. }
  assert (NHi : N <= bpow radix2 511).
  { unfold N, norm. rewrite <- (sqrt_square (bpow radix2 511)) by apply bpow_ge_0. apply sqrt_le_1_alt. rewrite <- bpow_plus.
    eapply Rle_trans; [exact Hi|]. unfold big. change (bpow radix2 (511 + 511)) with (bpow radix2 (1023 + -1)). rewrite bpow_plus. change (bpow radix2 (-1)) with (/ 2). lra. }
  assert (IHi : / N <= bpow radix2 495).
  { change (bpow radix2 495) with (bpow radix2 (Z.opp (-495))). rewrite bpow_opp. apply Rinv_le_contravar; auto. apply bpow_gt_0. }
  assert (ILo : bpow radix2 (-511) <= / N).
  { change (bpow radix2 (-511)) with (bpow radix2 (Z.opp 511)). rewrite bpow_opp. apply Rinv_le_contravar; auto. }
  assert (I1 : 0 < / N) by now apply Rinv_0_lt_compat.
  set (X := val c / N) in *.
  assert (XA : Rabs X = Rabs (val c) * / N).
  { unfold X, Rdiv. rewrite Rabs_mult, (Rabs_pos_eq (/ N)) by lra. reflexivity. }
  assert (XHi : Rabs X <= bpow radix2 895).
  { rewrite XA. apply Rle_trans with (unit_hi * bpow radix2 495); [apply Rmult_le_compat; try lra; apply Rabs_pos|].
    unfold unit_hi. rewrite <- bpow_plus. apply bpow_le. lia. }
  assert (XLo : bpow radix2 (-911) <= Rabs X).
  { rewrite XA. apply Rle_trans with (unit_lo * bpow radix2 (-511)).
    - unfold unit_lo. rewrite <- bpow_plus. apply bpow_le. lia.
    - apply Rmult_le_compat; try lra; apply bpow_ge_0. }
  (* the quotient *)
  assert (Qe : Rabs (val c / val mg - X) <= (INR n + 6) * u64 * Rabs X).
  { unfold X, Rdiv. replace (val c * / val mg - val c * / N) with (val c * (/ val mg - / N)) by ring.
    rewrite !Rabs_mult, (Rabs_pos_eq (/ N)) by lra.
    assert (Rabs (val c) * Rabs (/ val mg - / N) <= Rabs (val c) * ((INR n + 5 + 1) * u64 * / N)) by (apply Rmult_le_compat_l; [apply Rabs_pos|exact Mi]). lra. }
  assert (Xp : 0 <= Rabs X) by apply Rabs_pos.
  assert (Q1 : Rabs (val c / val mg) <= 2 * Rabs X).
  { pose proof (Rabs_triang (val c / val mg - X) X) as P. replace (val c / val mg - X + X) with (val c / val mg) in P by ring.
    assert ((INR n + 6) * u64 * Rabs X <= 1 * Rabs X) by (apply Rmult_le_compat_r; lra). lra. }
  assert (Q2 : / 2 * Rabs X <= Rabs (val c / val mg)).
  { pose proof (Rabs_triang (X - val c / val mg) (val c / val mg)) as P. replace (X - val c / val mg + val c / val mg) with X in P by ring.
    rewrite Rabs_minus_sym in P.
    assert ((INR n + 6) * u64 * Rabs X <= / 4 * Rabs X) by (apply Rmult_le_compat_r; lra). lra. }
  destruct (div_ok c mg Fc Fm ltac:(lra)) as [Fk Ek].
  { eapply Rle_trans; [exact Q1|]. apply Rle_trans with (bpow radix2 1 * bpow radix2 895); [change (bpow radix2 1) with 2; lra|].
    rewrite <- bpow_plus. apply bpow_le. lia. }
  set (k := SFdiv prec64 emax64 c mg) in *.
  assert (Ke : Rabs (val k - X) <= (INR n + 8) * u64 * Rabs X).
  { replace (INR n + 8) with (INR n + 6 + 2) by ring. rewrite <- (Rplus_0_r (_ * Rabs X)).
    apply rel_step with (val c / val mg); try lra. rewrite Ek, Rplus_0_r. apply rnd_rel_err.
    apply Rle_trans with (bpow radix2 (-1) * bpow radix2 (-911)); [rewrite <- bpow_plus; apply bpow_le; lia|].
    change (bpow radix2 (-1)) with (/ 2). lra. }
  assert (T : forall i, (i < n)%nat -> Rabs (X * rco a i) <= Rabs (val c)).
  { intros i Hi'. rewrite Rabs_mult, XA. pose proof (norm2_coord_le n (rco a) i Hi') as C. rewrite <- N2 in C.
    assert (Rabs (rco a i) <= N).
    { rewrite <- (Rabs_pos_eq N) by lra. apply Rsqr_le_abs_0. exact C. }
    apply Rle_trans with (Rabs (val c) * / N * N); [apply Rmult_le_compat_l; auto; apply Rmult_le_pos; [apply Rabs_pos|lra]|].
    rewrite Rmult_assoc, Rinv_l by lra. lra. }
  assert (Me : forall i, (i < n)%nat -> Rabs (rco a i * val k - X * rco a i) <= (INR n + 8) * u64 * Rabs (X * rco a i)).
  { intros i Hi'. replace (rco a i * val k - X * rco a i) with ((val k - X) * rco a i) by ring. rewrite !Rabs_mult.
    rewrite <- Rmult_assoc. apply Rmult_le_compat_r; [apply Rabs_pos|exact Ke]. }
  destruct (scale_round m n a k Da Fk) as [Dw Ew].
  { intros i Hi'. specialize (Me i Hi'). specialize (T i Hi').
    pose proof (Rabs_triang (rco a i * val k - X * rco a i) (X * rco a i)) as P.
    replace (rco a i * val k - X * rco a i + X * rco a i) with (rco a i * val k) in P by ring.
    assert ((INR n + 8) * u64 * Rabs (X * rco a i) <= 1 * Rabs (X * rco a i)) by (apply Rmult_le_compat_r; [apply Rabs_pos|lra]).
    apply Rle_trans with (bpow radix2 1 * unit_hi); [change (bpow radix2 1) with 2; lra|].
    unfold unit_hi. rewrite <- bpow_plus. apply bpow_le. lia. }
  assert (We : forall i, (i < n)%nat -> Rabs (rco w i - X * rco a i) <= (INR n + 10) * u64 * Rabs (X * rco a i) + eta64).
  { intros i Hi'. replace (INR n + 10) with (INR n + 8 + 2) by ring. apply rel_step with (rco a i * val k); try lra.
    - apply Me, Hi'.
    - change (rco w i) with (rco (vec_scale (H := B64 m) n a k) i). rewrite Ew by auto. apply rnd_err. }
  split; [exact Dw|]. split; [exact We|].
  assert (NX : norm n (fun i => X * rco a i) = Rabs (val c)).
  { rewrite norm_scal_abs. fold N. rewrite XA, Rmult_assoc, Rinv_l by lra. lra. }
  rewrite <- NX at 1. eapply Rle_trans; [apply norm_diff|].
  eapply Rle_trans; [apply (norm_mono n _ (fun i => (INR n + 10) * u64 * Rabs (X * rco a i) + eta64)); exact We|].
  eapply Rle_trans; [apply norm_triangle|]. rewrite norm_scal_abs.
  assert (NA : norm n (fun i => Rabs (X * rco a i)) = Rabs (val c)).
  { rewrite <- NX. unfold norm. f_equal. apply Rsum_ext. intros. rewrite <- Rabs_mult. apply Rabs_pos_eq, Rle_0_sqr. }
  rewrite NA. pose proof eta64_pos. pose proof (norm_const n eta64 ltac:(lra)) as NC.
  rewrite Rabs_pos_eq by (apply Rmult_le_pos; lra).
  assert (LL : low <= Rabs (val c)) by (eapply Rle_trans; [|exact Cl]; apply bpow_le; lia).
  pose proof (tiny_rel n _ Ln LL) as TR.
  assert (0 <= INR n * eta64) by (apply Rmult_le_pos; lra). lra.
Qed.

(** ** Cross products *)
Lemma two_term x y z t : fl x -> fl y -> fl z -> fl t -> Rabs (val x * val y) + Rabs (val z * val t) <= big / 2 ->
  let r := SFsub prec64 emax64 (SFmul prec64 emax64 x y) (SFmul prec64 emax64 z t) in
  fl r /\ Rabs (val r - (val x * val y - val z * val t)) <= 3 * u64 * (Rabs (val x * val y) + Rabs (val z * val t)) + 3 * eta64 /\
  (val x * val y = 0 -> val z * val t = 0 -> val r = 0).
Proof.
  intros Fx Fy Fz Ft B r. set (P := val x * val y) in *. set (Q := val z * val t) in *.
  pose proof (Rabs_pos P). pose proof (Rabs_pos Q). pose proof big_ge. pose proof u64_pos as [U U4]. pose proof eta64_pos.
  assert (E4 : eta64 <= / 4) by (change (/4) with (bpow radix2 (-2)); apply bpow_le; lia).
  destruct (mul_ok x y Fx Fy ltac:(fold P; lra)) as [F1 E1]. destruct (mul_ok z t Fz Ft ltac:(fold Q; lra)) as [F2 E2].
  fold P in E1. fold Q in E2. set (p := SFmul prec64 emax64 x y) in *. set (q := SFmul prec64 emax64 z t) in *.
  pose proof (rnd_err P) as R1. pose proof (rnd_err Q) as R2. rewrite <- E1 in R1. rewrite <- E2 in R2.
  set (S := Rabs P + Rabs Q) in *.
  assert (D : Rabs (val p - val q - (P - Q)) <= u64 * S + 2 * eta64).
  { replace (val p - val q - (P - Q)) with ((val p - P) + - (val q - Q)) by ring. eapply Rle_trans; [apply Rabs_triang|]. rewrite Rabs_Ropp. unfold S. lra. }
  assert (M : Rabs (val p - val q) <= (1 + u64) * S + 2 * eta64).
  { pose proof (Rabs_triang (val p - val q - (P - Q)) (P - Q)) as T. replace (val p - val q - (P - Q) + (P - Q)) with (val p - val q) in T by ring.
    pose proof (Rabs_triang P (- Q)) as T2. rewrite Rabs_Ropp in T2. unfold S, Rminus in *. lra. }
  assert (S0 : 0 <= S) by (unfold S; lra).
  destruct (sub_term p q F1 F2) as [Fr Er].
  { eapply Rle_trans; [exact M|]. assert ((1 + u64) * S <= 5 / 4 * S) by (apply Rmult_le_compat_r; lra). unfold S in *. lra. }
  split; [exact Fr|]. fold r in Er. split.
  - pose proof (Rabs_triang (val r - (val p - val q)) (val p - val q - (P - Q))) as T.
    replace (val r - (val p - val q) + (val p - val q - (P - Q))) with (val r - (P - Q)) in T by ring.
    assert (u64 * Rabs (val p - val q) <= u64 * ((1 + u64) * S + 2 * eta64)) by (apply Rmult_le_compat_l; lra).
    assert (u64 * (u64 * S) <= u64 * (/ 4 * S)) by (apply Rmult_le_compat_l; [lra|]; apply Rmult_le_compat_r; lra).
    assert (u64 * eta64 <= / 4 * eta64) by (apply Rmult_le_compat_r; lra).
    assert (0 <= u64 * S) by (apply Rmult_le_pos; lra). lra.
  - intros ZP ZQ. rewrite ZP in E1. rewrite ZQ in E2. rewrite rnd_0 in E1, E2. rewrite E1, E2 in Er.
    rewrite Rminus_0_r, Rabs_R0, Rmult_0_r in Er. pose proof (Rabs_pos (val r - 0)). 
    assert (Z : Rabs (val r - 0) = 0) by lra. rewrite Rminus_0_r in Z. destruct (Req_dec (val r) 0); auto. now apply Rabs_no_R0 in Z.
Qed.

Lemma lt_clamp s d : fl s -> fl d ->
  let c := if nltb (Num := B64 m) (nabs (Num := B64 m) s) d then n0 (H := B64 m) else s in
  fl c /\ (val c = val s \/ val c = 0 /\ Rabs (val s) < val d).
Proof.
  intros Fs Fd c. destruct (abs_ok s Fs) as [Fa Ea]. unfold c. cbn [nltb nabs B64]. rewrite ltb_ok by auto. rewrite Ea.
  destruct (Rlt_bool_spec (Rabs (val s)) (val d)); [|split; auto]. split; [apply n0_ok|]. right. split; [reflexivity|lra].
Qed.

Lemma cross3_ok a b : doubles 3 a -> doubles 3 b -> (forall i, (i < 3)%nat -> cross_mass (rco a) (rco b) i <= big / 2) ->
  let c := cross3 (H := B64 m) a b in
  doubles 3 c /\ forall i, (i < 3)%nat -> exists s,
    Rabs (s - cross_coord (rco a) (rco b) i) <= 3 * u64 * cross_mass (rco a) (rco b) i + 3 * eta64 /\
    (rco c i = s \/ rco c i = 0 /\
     forall A B, (forall j, (j < 3)%nat -> Rabs (rco a j) <= A) -> (forall j, (j < 3)%nat -> Rabs (rco b j) <= B) ->
       Rabs s <= 2 * epsR * (1 + u64) * Rmin A B + eta64).
Proof.
  intros Da Db Bd c. destruct (delta_ok m 3 a b Da Db) as (Fd & _ & Hd).
  set (d := scale_eps_arr (H := B64 m) (el a) (el b) b64_eps) in *.
  set (clamp := fun x => if nltb (Num := B64 m) (nabs (Num := B64 m) x) d then n0 (H := B64 m) else x).
  assert (G : forall i j, (i < 3)%nat -> (j < 3)%nat -> Rabs (rco a i * rco b j) + Rabs (rco b i * rco a j) <= big / 2 ->
    let r := SFsub prec64 emax64 (SFmul prec64 emax64 (nth i (el a) (S754_zero false)) (nth j (el b) (S754_zero false)))
               (SFmul prec64 emax64 (nth i (el b) (S754_zero false)) (nth j (el a) (S754_zero false))) in
    fl (clamp r) /\ exists s, Rabs (s - (rco a i * rco b j - rco a j * rco b i)) <= 3 * u64 * (Rabs (rco a i * rco b j) + Rabs (rco b i * rco a j)) + 3 * eta64 /\
    (val (clamp r) = s \/ val (clamp r) = 0 /\
     forall A B, (forall j, (j < 3)%nat -> Rabs (rco a j) <= A) -> (forall j, (j < 3)%nat -> Rabs (rco b j) <= B) ->
       Rabs s <= 2 * epsR * (1 + u64) * Rmin A B + eta64)).
  { intros i j Hi Hj B r.
    destruct (two_term (nth i (el a) (S754_zero false)) (nth j (el b) (S754_zero false)) (nth i (el b) (S754_zero false)) (nth j (el a) (S754_zero false))) as (Fr & Er & Zr);
      try (eapply co_fl; eauto). { exact B. }
    fold r in Fr, Er, Zr. rewrite !rco_val in *.
    destruct (lt_clamp r d Fr Fd) as [Fc Hc]. fold (clamp r) in Fc, Hc. split; [exact Fc|]. exists (val r).
    split; [rewrite (Rmult_comm (rco a j) (rco b i)); exact Er|].
    destruct Hc as [E|[E L]]; [left; exact E|]. destruct Hd as [Z|[Z|Hd]].
    - left. rewrite E. symmetry. apply Zr; rewrite ?Z by auto; ring.
    - left. rewrite E. symmetry. apply Zr; rewrite ?Z by auto; ring.
    - right. split; [exact E|]. intros A B' HA HB. specialize (Hd A B' HA HB). lra. }
  pose proof (Bd 0%nat ltac:(lia)) as B0. pose proof (Bd 1%nat ltac:(lia)) as B1. pose proof (Bd 2%nat ltac:(lia)) as B2.
  cbn [cross_mass] in B0, B1, B2.
  destruct (G 1%nat 2%nat ltac:(lia) ltac:(lia) B0) as [F0 E0].
  destruct (G 2%nat 0%nat ltac:(lia) ltac:(lia) B1) as [F1 E1].
  destruct (G 0%nat 1%nat ltac:(lia) ltac:(lia) B2) as [F2 E2].
  split.
  - split; [reflexivity|]. constructor; [apply fl_iff; exact F0|]. constructor; [apply fl_iff; exact F1|]. constructor; [apply fl_iff; exact F2|]. constructor.
  - intros i Hi. destruct i as [|[|[|i]]]; [exact E0|exact E1|exact E2|lia].
Qed.

(** ** Exact symmetries *)
Lemma SFmul_comm x y : SFmul prec64 emax64 x y = SFmul prec64 emax64 y x.
Proof.
  destruct x as [sx|sx| |sx mx ex], y as [sy|sy| |sy my ey]; try reflexivity; try (unfold SFmul; rewrite xorb_comm; reflexivity).
  unfold SFmul. rewrite xorb_comm, Pos.mul_comm, Z.add_comm. reflexivity.
Qed.
Lemma dot_sym n a b : dot (H := B64 m) n a b = dot (H := B64 m) n b a.
Proof.
  unfold dot.
  assert (E : nsum (H := B64 m) n (fun i => nmul (Num := B64 m) (at_ (H := B64 m) a i) (at_ (H := B64 m) b i)) =
              nsum (H := B64 m) n (fun i => nmul (Num := B64 m) (at_ (H := B64 m) b i) (at_ (H := B64 m) a i))).
  { unfold nsum. generalize (n0 (H := B64 m)). induction (seq 0 n) as [|i l IH]; intros acc; cbn [fold_left]; auto.
    rewrite IH. f_equal. cbn [nmul nadd B64]. f_equal. apply SFmul_comm. }
  cbv zeta. rewrite E. unfold scale_eps_arr. rewrite scale_eps_b64_sym by apply max_abs_b64. reflexivity.
Qed.
Lemma distance_sym n p q : distance (H := B64 m) n p q = distance (H := B64 m) n q p.
Proof. unfold distance. rewrite sqd_b64_sym. reflexivity. Qed.
Lemma add_sym n a b : vec_add (H := B64 m) n a b = vec_add (H := B64 m) n b a.
Proof.
  unfold vec_add. rewrite andb_comm. f_equal. unfold tab. apply map_ext. intros i. cbn [nadd B64]. apply SFadd_comm.
Qed.
End B.
