(** LogFactorial from the cutoff on, in doubles: proofs. *)
From Coq Require Import ZArith Reals Bool List SpecFloat Lia Lra.
From Flocq Require Import Core IEEE754.BinarySingleNaN.
From Verif Require Import Base Scalar OrdLib RLib B64Lib B64Ops FloatOps ConstSpec RoundLib RoundProofs RSpec RoundProofs2 SegDouble BallDouble MiniballModel LitModel LitProofs.
From Verif Require Import ProbModel ProbDoubleModel ProbDoubleSpec RoundSpec Stirling ProbProofs GaussDouble PoissonDouble SeriesDouble SeriesDouble2.
Open Scope R_scope.

Section Terms.
Notation term := (term 0).
Notation partial := (partial 0).
Notation cf := (cf 0).
Lemma term_small z i : 10 <= z -> (i <= 10)%nat -> Rabs (term z i) <= 1 / 120 /\ 0 <= partial z i <= 1 / 100.
Proof.
  intros Hz Hi. destruct (terms 0 z Hz) as (T0 & T1 & T2 & T3 & T4 & T5 & T6 & T7 & T8 & T9 & T10).
  assert (E0 : term z 0 = 1 / 12 / z) by (unfold ProbProofs.term; change (2 * 0 + 1)%nat with 1%nat; rewrite pow_1; reflexivity).
  assert (Z1 : 0 < / z <= 1 / 10) by (split; [apply Rinv_0_lt_compat; lra|replace (1 / 10) with (/ 10) by lra; apply Rinv_le_contravar; lra]). assert (Z0 : term z 0 <= 1 / 120) by (rewrite E0; unfold Rdiv in *; lra). clear E0.
  do 11 (destruct i as [|i]; [split; [apply Rabs_le; lra|cbn [ProbProofs.partial]; lra]|]). lia.
Qed.
Lemma term_last z : 10 <= z -> Rabs (term z 10) <= 14 / 10 ^ 21.
Proof.
  intros Hz. destruct (terms 0 z Hz) as (_ & _ & _ & _ & _ & _ & _ & _ & _ & _ & T10 & _). rewrite Rabs_pos_eq by lra. unfold ProbProofs.term. change (2 * 10 + 1)%nat with 21%nat. unfold ProbProofs.cf, coeffs, frac. cbn [nth ndiv nofZ Rnum].
  assert (P : 0 < / z ^ 21 <= 1 / 10 ^ 21). { split; [apply Rinv_0_lt_compat, pow_lt; lra|]. replace (1 / 10 ^ 21) with (/ 10 ^ 21) by (unfold Rdiv; ring). apply Rinv_le_contravar; [apply pow_lt; lra|apply pow_incr; lra]. }
  unfold Rdiv at 1. apply Rle_trans with (14 * (1 / 10 ^ 21)); [apply Rmult_le_compat; lra|lra].
Qed.
Lemma frac_ok m a b : (Z.abs a <= 2 ^ 53)%Z -> (1 <= b <= 2 ^ 53)%Z -> fl (frac (H := B64 m) a b) /\ Rabs (val (frac (H := B64 m) a b) - IZR a / IZR b) <= u64 * Rabs (IZR a / IZR b) + eta64.
Proof.
  intros Ha Hb. change (frac (H := B64 m) a b) with (SFdiv prec64 emax64 (b64_ofZ a) (b64_ofZ b)). destruct (ofZ_whole a Ha) as [Fa Va]. destruct (ofZ_whole b ltac:(lia)) as [Fb Vb]. assert (B1 : 1 <= IZR b) by (apply IZR_le; lia).
  assert (Q : Rabs (IZR a / IZR b) <= big). { unfold Rdiv. rewrite Rabs_mult, (Rabs_pos_eq (/ _)) by (left; apply Rinv_0_lt_compat; lra). apply Rle_trans with (Rabs (IZR a) * 1); [apply Rmult_le_compat_l; [apply Rabs_pos|rewrite <- Rinv_1; apply Rinv_le; lra]|]. rewrite Rmult_1_r, <- abs_IZR. apply Rle_trans with (IZR (2 ^ 53)); [now apply IZR_le|]. change (IZR (2 ^ 53)) with (bpow radix2 53). apply bpow_le. lia. }
  destruct (div_ok _ _ Fa Fb ltac:(lra) ltac:(rewrite Va, Vb; exact Q)) as [F E]. rewrite Va, Vb in E. split; [exact F|]. rewrite E. apply rnd_err.
Qed.
Lemma coeff_ok m i : (i <= 10)%nat -> exists c, skipn i (coeffs (H := B64 m)) = c :: skipn (S i) (coeffs (H := B64 m)) /\ fl c /\ Rabs (cf i) <= 14 /\ Rabs (val c - cf i) <= u64 * Rabs (cf i) + eta64.
Proof.
  intros Hi. do 11 (destruct i as [|i]; [eexists; split; [reflexivity|]; match goal with |- fl (frac ?a ?b) /\ _ => destruct (frac_ok m a b ltac:(lia) ltac:(lia)) as [F E] end; split; [exact F|]; split; [apply Rabs_le; unfold ProbProofs.cf, coeffs, frac; cbn [nth ndiv nofZ Rnum]; lra|exact E]|]). lia.
Qed.
(** One term: next is close to term i, and the next power of 1/z to the right one. *)
Lemma power_step c C w W q Q nx : Rabs C <= 14 -> Rabs (c - C) <= u64 * Rabs C + eta64 -> 0 <= W <= 1 / 10 -> Rabs (w - W) <= u64 -> 0 <= Q <= 1 / 100 -> Rabs (q - Q) <= u64 / 10 ->
  nx = rnd (c * w) -> Rabs (c * w) <= 2 /\ Rabs nx <= 2 /\ Rabs (nx - C * W) <= 18 * u64 /\ Rabs (w * q) <= 1 /\ Rabs (rnd (w * q) - W * Q) <= u64.
Proof.
  intros HC Hc HW Hw HQ Hq ->. pose proof u64_pos as [U0 _]. pose proof u_tiny as U. pose proof eta64_pos as E0. pose proof eta_u as E1. assert (U' : u64 <= 1 / 1000000000000) by lra.
  assert (Ca : Rabs (c - C) <= 14.01 * u64) by (assert (u64 * Rabs C <= u64 * 14) by (apply Rmult_le_compat_l; lra); lra).
  assert (C1 : Rabs c <= 14.1) by (replace c with (C + (c - C)) by ring; eapply Rle_trans; [apply Rabs_triang|lra]). assert (W1 : Rabs w <= 0.11) by (replace w with (W + (w - W)) by ring; eapply Rle_trans; [apply Rabs_triang|rewrite (Rabs_pos_eq W); lra]).
  assert (P1 : Rabs (c * w) <= 1.6) by (rewrite Rabs_mult; apply Rle_trans with (14.1 * 0.11); [apply Rmult_le_compat; try apply Rabs_pos; lra|lra]).
  assert (P2 : Rabs (c * w - C * W) <= 15.6 * u64). { replace (c * w - C * W) with (c * (w - W) + (c - C) * W) by ring. eapply Rle_trans; [apply Rabs_triang|]. rewrite !Rabs_mult, (Rabs_pos_eq W) by lra. assert (Rabs c * Rabs (w - W) <= 14.1 * u64) by (apply Rmult_le_compat; try apply Rabs_pos; lra). assert (Rabs (c - C) * W <= 14.01 * u64 * (1 / 10)) by (apply Rmult_le_compat; try apply Rabs_pos; lra). lra. }
  pose proof (rnd_err (c * w)) as R. assert (u64 * Rabs (c * w) <= u64 * 1.6) by (apply Rmult_le_compat_l; lra).
  split; [lra|]. split; [replace (rnd (c * w)) with (c * w + (rnd (c * w) - c * w)) by ring; eapply Rle_trans; [apply Rabs_triang|lra]|].
  split; [replace (rnd (c * w) - C * W) with ((rnd (c * w) - c * w) + (c * w - C * W)) by ring; eapply Rle_trans; [apply Rabs_triang|lra]|].
  assert (Q1 : Rabs q <= 0.011) by (replace q with (Q + (q - Q)) by ring; eapply Rle_trans; [apply Rabs_triang|rewrite (Rabs_pos_eq Q); lra]).
  assert (P3 : Rabs (w * q) <= 0.01) by (rewrite Rabs_mult; apply Rle_trans with (0.11 * 0.011); [apply Rmult_le_compat; try apply Rabs_pos; lra|lra]). split; [lra|].
  assert (P4 : Rabs (w * q - W * Q) <= 0.1 * u64). { replace (w * q - W * Q) with (w * (q - Q) + (w - W) * Q) by ring. eapply Rle_trans; [apply Rabs_triang|]. rewrite !Rabs_mult, (Rabs_pos_eq Q) by lra. assert (Rabs w * Rabs (q - Q) <= 0.11 * (u64 / 10)) by (apply Rmult_le_compat; try apply Rabs_pos; lra). assert (Rabs (w - W) * Q <= u64 * (1 / 100)) by (apply Rmult_le_compat; try apply Rabs_pos; lra). lra. }
  pose proof (rnd_err (w * q)) as R2. assert (u64 * Rabs (w * q) <= u64 * 0.01) by (apply Rmult_le_compat_l; lra).
  replace (rnd (w * q) - W * Q) with ((rnd (w * q) - w * q) + (w * q - W * Q)) by ring. eapply Rle_trans; [apply Rabs_triang|]. lra.
Qed.
End Terms.

Lemma u_tiny16 : u64 <= 1 / 5000000000000000.
Proof. unfold u64. change (bpow radix2 (-53)) with (/ IZR (2 ^ 53)). change (2 ^ 53)%Z with 9007199254740992%Z. lra. Qed.
Definition pre (z : R) (i : nat) : R := match i with O => 0 | S j => partial 0 z j end.
Lemma pre_step z i : pre z i + term 0 z i = partial 0 z i.
Proof. destruct i; cbn [pre partial]; ring. Qed.
Section Loop.
Variables (m : libm) (e l : spec_float -> spec_float) (z : R) (q small : spec_float) (a M : R).
Hypotheses (Hz : 10 <= z) (Fq : fl q) (Bq : Rabs (val q - / z * / z) <= u64 / 10) (Fs : fl small) (Bs : 25 * u64 <= val small <= 2.1 * (u64 * M)) (HM : 22 <= M <= 100000000000) (Ha : 0 <= a <= M).
Lemma unfold_loop c cs w ans : series_loop (H := B64 m) (c :: cs) w q small ans =
  if SFltb (SFabs (SFmul prec64 emax64 c w)) small then Ret (SFadd prec64 emax64 ans (SFmul prec64 emax64 c w))
  else series_loop (H := B64 m) cs (SFmul prec64 emax64 w q) q small (SFadd prec64 emax64 ans (SFmul prec64 emax64 c w)).
Proof. reflexivity. Qed.
Lemma loop d : forall i w ans, (i + d = 10)%nat -> fl w -> Rabs (val w - / z ^ (2 * i + 1)) <= u64 -> fl ans -> Rabs (val ans - (a + pre z i)) <= (8 + 1.9 * INR i) * (u64 * M) ->
  exists k v, (k <= 10)%nat /\ series_loop (H := B64 m) (skipn i (coeffs (H := B64 m))) w q small ans = Ret v /\ fl v /\ Rabs (val v - (a + partial 0 z k)) <= (8 + 1.9 * (INR k + 1)) * (u64 * M) /\ Rabs (term 0 z k) <= 3 * (u64 * M).
Proof.
  pose proof u64_pos as [U0 _]. pose proof u_tiny16 as U. pose proof eta64_pos as E0. pose proof eta_u as E1. assert (U' : u64 <= 1 / 5000000000000000) by lra.
  assert (UM : 0 <= u64 * M) by (apply Rmult_le_pos; lra). assert (UM1 : u64 * M <= 1 / 5000000000000000 * 100000000000) by (apply Rmult_le_compat; lra). assert (UM2 : 22 * u64 <= u64 * M) by (rewrite (Rmult_comm u64); apply Rmult_le_compat_r; lra).
  assert (Bg : bpow radix2 40 <= big) by (apply bpow_le; lia). assert (B40 : 200000000000 <= bpow radix2 40) by (change (bpow radix2 40) with (IZR (2 ^ 40)); apply IZR_le; lia).
  assert (Q : 0 <= / z * / z <= 1 / 100). { assert (I : 0 < / z <= 1 / 10) by (split; [apply Rinv_0_lt_compat; lra|replace (1 / 10) with (/ 10) by lra; apply Rinv_le_contravar; lra]). split; [apply Rmult_le_pos; lra|]. replace (1 / 100) with (1 / 10 * (1 / 10)) by lra. apply Rmult_le_compat; lra. }
  induction d as [|d IH]; intros i w ans Hi Fw Bw Fa Ba.
  all: destruct (coeff_ok m i ltac:(lia)) as (c & Ec & Fc & C14 & Bc); rewrite Ec, unfold_loop.
  all: assert (W : 0 <= / z ^ (2 * i + 1) <= 1 / 10) by (split; [left; apply Rinv_0_lt_compat, pow_lt; lra|]; replace (1 / 10) with (/ 10) by lra; apply Rinv_le_contravar; [lra|]; apply Rle_trans with (z ^ 1); [lra|apply Rle_pow; [lra|lia]]).
  all: destruct (power_step (val c) (cf 0 i) (val w) (/ z ^ (2 * i + 1)) (val q) (/ z * / z) (rnd (val c * val w)) C14 Bc W Bw Q Bq eq_refl) as (P1 & P2 & P3 & P4 & P5).
  all: change (cf 0 i * / z ^ (2 * i + 1)) with (term 0 z i) in P3.
  all: destruct (mul_ok c w Fc Fw ltac:(lra)) as [Fn En]; set (nx := SFmul prec64 emax64 c w) in *; rewrite <- En in P2, P3.
  all: destruct (term_small z i ltac:(lra) ltac:(lia)) as (T1 & T2); assert (T3 : -1 / 100 <= pre z i <= 2 / 100) by (pose proof (pre_step z i); apply Rabs_le_inv in T1; lra).
  all: assert (I10 : 0 <= INR i <= 10) by (split; [apply pos_INR|change 10 with (IZR (Z.of_nat 10)); rewrite <- INR_IZR_INZ; apply le_INR; lia]).
  all: assert (IU : INR i * (u64 * M) <= 10 * (u64 * M)) by (apply Rmult_le_compat_r; lra).
  all: assert (S1 : Rabs (val ans + val nx - (a + partial 0 z i)) <= (8 + 1.9 * INR i) * (u64 * M) + 18 * u64) by (rewrite <- pre_step; replace (val ans + val nx - (a + (pre z i + term 0 z i))) with ((val ans - (a + pre z i)) + (val nx - term 0 z i)) by ring; eapply Rle_trans; [apply Rabs_triang|lra]).
  all: assert (S2 : Rabs (val ans + val nx) <= 1.01 * M) by (replace (val ans + val nx) with ((val ans + val nx - (a + partial 0 z i)) + (a + partial 0 z i)) by ring; eapply Rle_trans; [apply Rabs_triang|]; rewrite (Rabs_pos_eq (a + _)) by lra; lra).
  all: destruct (add_ok ans nx Fa Fn ltac:(lra)) as [Fr Er]; set (an := SFadd prec64 emax64 ans nx) in *.
  all: assert (S3 : Rabs (val an - (a + partial 0 z i)) <= (8 + 1.9 * (INR i + 1)) * (u64 * M)) by (rewrite Er; pose proof (rnd_add_err _ _ (fl_format _ Fa) (fl_format _ Fn)) as R; assert (u64 * Rabs (val ans + val nx) <= u64 * (1.01 * M)) by (apply Rmult_le_compat_l; lra); replace (rnd (val ans + val nx) - (a + partial 0 z i)) with ((rnd (val ans + val nx) - (val ans + val nx)) + (val ans + val nx - (a + partial 0 z i))) by ring; eapply Rle_trans; [apply Rabs_triang|lra]).
  all: destruct (abs_ok nx Fn) as [Fb Eb]; rewrite (ltb_ok _ _ Fb Fs), Eb.
  all: assert (Fin : Rabs (val nx) < val small -> exists k v, (k <= 10)%nat /\ Ret an = Ret v /\ fl v /\ Rabs (val v - (a + partial 0 z k)) <= (8 + 1.9 * (INR k + 1)) * (u64 * M) /\ Rabs (term 0 z k) <= 3 * (u64 * M)) by (intros L; exists i, an; split; [lia|]; split; [reflexivity|]; split; [exact Fr|]; split; [exact S3|]; replace (term 0 z i) with (val nx + - (val nx - term 0 z i)) by ring; eapply Rle_trans; [apply Rabs_triang|]; rewrite Rabs_Ropp; lra).
  - rewrite Nat.add_0_r in Hi. subst i. rewrite Rlt_bool_true; [apply Fin|]; (pose proof (term_last z ltac:(lra)) as TL; assert (X : 14 / 10 ^ 21 <= u64) by (apply Rle_trans with (/ IZR (2 ^ 54)); [lra|unfold u64; change (bpow radix2 (-53)) with (/ IZR (2 ^ 53)); lra]);
     apply Rle_lt_trans with (18 * u64 + u64); [replace (val nx) with ((val nx - term 0 z 10) + term 0 z 10) by ring; eapply Rle_trans; [apply Rabs_triang|lra]|lra]).
  - destruct (Rlt_bool_spec (Rabs (val nx)) (val small)) as [L|L]; [now apply Fin|]. destruct (mul_ok w q Fw Fq ltac:(lra)) as [Fw' Ew'].
    apply (IH (S i)); [lia|exact Fw'| |exact Fr|cbn [pre]; rewrite S_INR; exact S3].
    rewrite Ew'. assert (Ep : / z ^ (2 * S i + 1) = / z ^ (2 * i + 1) * (/ z * / z)). { replace (2 * S i + 1)%nat with (2 * i + 1 + 2)%nat by lia. rewrite (pow_add z (2 * i + 1) 2). pose proof (pow_nonzero z (2 * i + 1) ltac:(lra)) as N. set (y := z ^ (2 * i + 1)) in *. clearbody y. cbn [pow]. field. split; [lra|auto]. }
    rewrite Ep. exact P5.
Qed.
End Loop.

Lemma start_close Z L lz c K : 10 <= Z <= bpow radix2 32 -> 2.2 <= L <= 23 -> Rabs (lz - L) <= 2 * u64 * L + eta64 -> 0 <= K <= 1 -> Rabs (c - K) <= 4 * u64 -> let M := Z * L in
  let h := rnd (Z - / 2) in let p := rnd (h * lz) in let p' := rnd (p - Z) in
  Rabs (h * lz) <= bpow radix2 40 /\ Rabs (p - Z) <= bpow radix2 40 /\ Rabs (p' + c) <= bpow radix2 40 /\ Rabs (rnd (p' + c) - ((Z - 1 / 2) * L - Z + K)) <= 8 * (u64 * M) /\ 22 <= M <= 100000000000 /\ (Z - 1 / 2) * L - Z + K <= M.
Proof.
  intros HZ HL Hl HK Hc M h p p'. pose proof u64_pos as [U0 _]. pose proof u_tiny16 as U. pose proof eta64_pos as E0. pose proof eta_u as E1. assert (U' : u64 <= 1 / 5000000000000000) by lra.
  assert (B20 : bpow radix2 32 = 4294967296) by reflexivity. assert (B30 : bpow radix2 40 = 1099511627776) by reflexivity. rewrite B20 in HZ. rewrite B30.
  assert (M1 : 22 <= M <= 100000000000). { unfold M. split; [replace 22 with (10 * 2.2) by lra; apply Rmult_le_compat; lra|apply Rle_trans with (4294967296 * 23); [apply Rmult_le_compat; lra|lra]]. }
  assert (M2 : 2 * Z <= M) by (unfold M; rewrite Rmult_comm; apply Rmult_le_compat_l; lra). assert (UM : 0 <= u64 * M) by (apply Rmult_le_pos; lra). assert (UM1 : u64 * M <= 1 / 5000000000000000 * 100000000000) by (apply Rmult_le_compat; lra). assert (UM2 : 22 * u64 <= u64 * M) by (rewrite (Rmult_comm u64); apply Rmult_le_compat_r; lra).
  assert (H1 : Rabs (h - (Z - / 2)) <= u64 * Z). { pose proof (rnd_err (Z - / 2)) as R. rewrite (Rabs_pos_eq (Z - / 2)) in R by lra. fold h in R. replace (u64 * (Z - / 2)) with (u64 * Z - u64 * / 2) in R by ring. lra. }
  assert (UZ : 0 <= u64 * Z <= 1 / 5000000000000000 * 4294967296) by (split; [apply Rmult_le_pos; lra|apply Rmult_le_compat; lra]). assert (UZM : u64 * Z <= u64 * M) by (apply Rmult_le_compat_l; lra).
  apply Rabs_le_inv in H1 as H1'. assert (H2 : 0 <= h <= Z) by lra. set (A := (Z - / 2) * L). assert (A0 : 0 <= A <= M). { unfold A, M. split; [apply Rmult_le_pos; lra|apply Rmult_le_compat_r; lra]. }
  assert (P1 : Rabs (h * lz - A) <= 3.01 * (u64 * M)).
  { replace (h * lz - A) with (h * (lz - L) + (h - (Z - / 2)) * L) by (unfold A; ring). eapply Rle_trans; [apply Rabs_triang|]. rewrite !Rabs_mult, (Rabs_pos_eq h), (Rabs_pos_eq L) by lra. assert (X1 : h * Rabs (lz - L) <= Z * (2 * u64 * L + eta64)) by (apply Rmult_le_compat; try apply Rabs_pos; lra). assert (X2 : Rabs (h - (Z - / 2)) * L <= u64 * Z * L) by (apply Rmult_le_compat_r; lra).
    assert (X3 : Z * eta64 <= Z * (u64 / 1000000)) by (apply Rmult_le_compat_l; lra). replace (Z * (2 * u64 * L + eta64)) with (2 * (u64 * M) + Z * eta64) in X1 by (unfold M; ring). replace (u64 * Z * L) with (u64 * M) in X2 by (unfold M; ring). lra. }
  assert (P2 : Rabs (h * lz) <= 1.01 * M). { replace (h * lz) with ((h * lz - A) + A) by ring. eapply Rle_trans; [apply Rabs_triang|]. rewrite (Rabs_pos_eq A) by lra. lra. }
  assert (P3 : Rabs (p - A) <= 4.1 * (u64 * M)). { pose proof (rnd_err (h * lz)) as R. fold p in R. assert (u64 * Rabs (h * lz) <= u64 * (1.01 * M)) by (apply Rmult_le_compat_l; lra). replace (p - A) with ((p - h * lz) + (h * lz - A)) by ring. eapply Rle_trans; [apply Rabs_triang|]. lra. }
  assert (P4 : Rabs (p - Z) <= 1.01 * M). { replace (p - Z) with ((p - A) + (A - Z)) by ring. eapply Rle_trans; [apply Rabs_triang|]. assert (Rabs (A - Z) <= M) by (apply Rabs_le; lra). lra. }
  assert (P5 : Rabs (p' - (A - Z)) <= 5.2 * (u64 * M)). { pose proof (rnd_err (p - Z)) as R. fold p' in R. assert (u64 * Rabs (p - Z) <= u64 * (1.01 * M)) by (apply Rmult_le_compat_l; lra). replace (p' - (A - Z)) with ((p' - (p - Z)) + (p - A)) by ring. eapply Rle_trans; [apply Rabs_triang|]. lra. }
  assert (P6 : Rabs (p' + c) <= 1.1 * M). { replace (p' + c) with ((p' - (A - Z)) + (c - K) + (A - Z + K)) by ring. eapply Rle_trans; [apply Rabs_triang|]. pose proof (Rabs_triang (p' - (A - Z)) (c - K)). assert (Rabs (A - Z + K) <= M) by (apply Rabs_le; lra). lra. }
  replace ((Z - 1 / 2) * L) with A by (unfold A; lra). split; [lra|]. split; [lra|]. split; [lra|]. split; [|split; [exact M1|lra]].
  pose proof (rnd_err (p' + c)) as R. assert (u64 * Rabs (p' + c) <= u64 * (1.1 * M)) by (apply Rmult_le_compat_l; lra). replace (rnd (p' + c) - (A - Z + K)) with ((rnd (p' + c) - (p' + c)) + ((p' - (A - Z)) + (c - K))) by ring. eapply Rle_trans; [apply Rabs_triang|]. pose proof (Rabs_triang (p' - (A - Z)) (c - K)). lra.
Qed.
(** The constant ln(2 pi) / 2. *)
Lemma log2_ok : fl (k_log2 double_constants) /\ Rabs (val (k_log2 double_constants) - ln 2) <= u64.
Proof.
  split; [split; vm_compute; reflexivity|]. destruct log2_within as [W1 W2]. let c := eval vm_compute in (k_log2 double_constants) in change (k_log2 double_constants) with c. unfold val, SF2R, F2R. cbn [Fnum Fexp SpecFloat.cond_Zopp]. rewrite ten52 in W1, W2. unfold u64. change (bpow radix2 (-53)) with (/ IZR (2 ^ 53)). set (v := ln 2) in *. clearbody v.
  match goal with |- context [IZR ?k * / IZR (2 ^ 53)] => set (n := k) end. assert (T : 0 < IZR (10 ^ 52)) by (apply IZR_lt; reflexivity). assert (P : 0 < IZR (2 ^ 53)) by (apply IZR_lt; reflexivity).
  apply (Rmult_le_compat_r (IZR (10 ^ 52))) in W1; [|lra]. apply (Rmult_le_compat_r (IZR (10 ^ 52))) in W2; [|lra]. unfold Rdiv in W1, W2. rewrite Rmult_assoc, Rinv_l, Rmult_1_r in W1, W2 by lra. apply (Rmult_le_compat_r (IZR (2 ^ 53))) in W1; [|lra]. apply (Rmult_le_compat_r (IZR (2 ^ 53))) in W2; [|lra].
  rewrite <- mult_IZR in W1, W2. assert (X : - IZR (10 ^ 52) <= (IZR n * / IZR (2 ^ 53) - v) * (IZR (10 ^ 52) * IZR (2 ^ 53)) <= IZR (10 ^ 52)).
  { replace ((IZR n * / IZR (2 ^ 53) - v) * (IZR (10 ^ 52) * IZR (2 ^ 53))) with (IZR n * IZR (10 ^ 52) - v * IZR (10 ^ 52) * IZR (2 ^ 53)) by (field; lra). rewrite <- mult_IZR. split.
    - eapply Rle_trans; [|apply Rplus_le_compat_l, Ropp_le_contravar, W2]. rewrite <- opp_IZR, <- opp_IZR, <- plus_IZR. apply IZR_le. vm_compute. discriminate.
    - eapply Rle_trans; [apply Rplus_le_compat_l, Ropp_le_contravar, W1|]. rewrite <- opp_IZR, <- plus_IZR. apply IZR_le. vm_compute. discriminate. }
  assert (TP : 0 < IZR (10 ^ 52) * IZR (2 ^ 53)) by (apply Rmult_lt_0_compat; lra). apply Rmult_le_reg_r with (IZR (10 ^ 52) * IZR (2 ^ 53)); [exact TP|]. replace (/ IZR (2 ^ 53) * (IZR (10 ^ 52) * IZR (2 ^ 53))) with (IZR (10 ^ 52)) by (field; lra).
  rewrite <- (Rabs_pos_eq (IZR (10 ^ 52) * IZR (2 ^ 53))) by lra. rewrite <- Rabs_mult. apply Rabs_le. exact X.
Qed.
Lemma log_pi_bounds : 1 <= ln PI <= 1.2.
Proof.
  destruct log_pi_within as [W1 W2]. rewrite ten52 in *. assert (T : 0 < IZR (10 ^ 52)) by (apply IZR_lt; reflexivity). split.
  - eapply Rle_trans; [|exact W1]. apply Rmult_le_reg_r with (IZR (10 ^ 52)); [exact T|]. unfold Rdiv. rewrite Rmult_assoc, Rinv_l, Rmult_1_r, Rmult_1_l by lra. apply IZR_le. vm_compute. discriminate.
  - eapply Rle_trans; [exact W2|]. apply Rmult_le_reg_r with (IZR (10 ^ 52)); [exact T|]. unfold Rdiv. rewrite Rmult_assoc, Rinv_l, Rmult_1_r by lra. apply Rle_trans with (IZR (12 * 10 ^ 51)); [apply IZR_le; vm_compute; discriminate|]. right. change (10 ^ 52)%Z with (10 * 10 ^ 51)%Z. rewrite !mult_IZR. lra.
Qed.
Lemma log_pi_ok : fl (k_log_pi double_constants) /\ Rabs (val (k_log_pi double_constants) - ln PI) <= u64 * ln PI.
Proof. split; [split; vm_compute; reflexivity|]. eapply near_const; [exact log_pi_within|vm_compute; reflexivity|apply log_pi_bounds|vm_compute; discriminate]. Qed.
Lemma constant_ok : let c := SFdiv prec64 emax64 (SFadd prec64 emax64 (k_log_pi double_constants) (k_log2 double_constants)) (b64_ofZ 2) in fl c /\ Rabs (val c - ln (2 * PI) / 2) <= 4 * u64 /\ 0 <= ln (2 * PI) / 2 <= 1.
Proof.
  intros c. pose proof u64_pos as [U0 _]. pose proof u_tiny16 as U. pose proof eta64_pos as E0. pose proof eta_u as E1. assert (U' : u64 <= 1 / 5000000000000000) by lra.
  destruct log_pi_ok as [F1 B1]. destruct log2_ok as [F2 B2]. pose proof log_pi_bounds as L1. pose proof ln2_small as L2. destruct (ofZ_whole 2 ltac:(lia)) as [F3 V3]. assert (B8 : 8 <= big) by (apply (bpow_le radix2 3 1023); lia).
  assert (El : ln (2 * PI) = ln 2 + ln PI) by (apply ln_mult; [lra|apply PI_RGT_0]). rewrite El. set (x := val (k_log_pi double_constants)) in *. set (y := val (k_log2 double_constants)) in *. set (p := ln PI) in *. set (t := ln 2) in *.
  assert (B1' : u64 * p <= u64 * 1.2) by (apply Rmult_le_compat_l; lra). apply Rabs_le_inv in B1, B2. assert (X : 0 <= x + y <= 2) by lra.
  destruct (add_ok _ _ F1 F2 ltac:(fold x y; rewrite Rabs_pos_eq; lra)) as [Fs Es]. fold x y in Es. pose proof (rnd_err (x + y)) as R. rewrite <- Es, (Rabs_pos_eq (x + y)) in R by lra. assert (u64 * (x + y) <= u64 * 2) by (apply Rmult_le_compat_l; lra). apply Rabs_le_inv in R.
  set (s := SFadd prec64 emax64 (k_log_pi double_constants) (k_log2 double_constants)) in *. assert (H2 : 0 <= val s / 2 <= 1.1) by lra. destruct (div_ok s (b64_ofZ 2) Fs F3 ltac:(lra) ltac:(rewrite V3, Rabs_pos_eq; lra)) as [Fd Ed]. fold c in Fd, Ed. rewrite V3 in Ed.
  pose proof (rnd_err (val s / 2)) as R2. rewrite <- Ed, (Rabs_pos_eq (val s / 2)) in R2 by lra. assert (u64 * (val s / 2) <= u64 * 1.1) by (apply Rmult_le_compat_l; lra). apply Rabs_le_inv in R2. split; [exact Fd|]. split; [apply Rabs_le; lra|lra].
Qed.

Lemma log_gamma_far_double m (e l : spec_float -> spec_float) z : fl z -> 10 <= val z -> log_gamma (H := B64 m) (H0 := Btrans e l) z = Some (stirling (H := B64 m) (H0 := Btrans e l) z (b64_ofZ 0)).
Proof.
  intros Fz Hz. destruct (ofZ_whole 1 ltac:(lia)) as [F1 V1]. destruct (ofZ_whole 2 ltac:(lia)) as [F2 V2]. destruct (ofZ_whole 10 ltac:(lia)) as [F10 V10].
  assert (Hh : fl (SFdiv prec64 emax64 (b64_ofZ 1) (b64_ofZ 2)) /\ val (SFdiv prec64 emax64 (b64_ofZ 1) (b64_ofZ 2)) = / 2) by (split; [split; vm_compute; reflexivity|vm_compute; lra]). destruct Hh as [Fh Vh].
  unfold log_gamma. cbn [log_gamma_]. change (nltb (Num := B64 m) z (nhalf (H := B64 m))) with (SFltb z (SFdiv prec64 emax64 (b64_ofZ 1) (b64_ofZ 2))). change (neqb (Num := B64 m) z (nhalf (H := B64 m))) with (SFeqb z (SFdiv prec64 emax64 (b64_ofZ 1) (b64_ofZ 2))).
  change (neqb (Num := B64 m) z (n1 (H := B64 m))) with (SFeqb z (b64_ofZ 1)). change (neqb (Num := B64 m) z (n2 (H := B64 m))) with (SFeqb z (b64_ofZ 2)). change (nltb (Num := B64 m) z (nofZ (Num := B64 m) gamma_cutoff)) with (SFltb z (b64_ofZ 10)).
  rewrite (ltb_ok _ _ Fz Fh), (eqb_ok _ _ Fz Fh), (eqb_ok _ _ Fz F1), (eqb_ok _ _ Fz F2), (ltb_ok _ _ Fz F10). rewrite Vh, V1, V2, V10, Rlt_bool_false, !Req_bool_false, Rlt_bool_false by lra. reflexivity.
Qed.
Lemma ln2_low : 0.6931 <= ln 2.
Proof.
  destruct log2_within as [W1 _]. rewrite ten52 in W1. assert (T : 0 < IZR (10 ^ 52)) by (apply IZR_lt; reflexivity). eapply Rle_trans; [|exact W1]. apply Rmult_le_reg_r with (IZR (10 ^ 52)); [exact T|]. unfold Rdiv. rewrite Rmult_assoc, Rinv_l, Rmult_1_r by lra.
  apply Rle_trans with (IZR (6931 * 10 ^ 48)); [right|apply IZR_le; vm_compute; discriminate]. change (10 ^ 52)%Z with (10000 * 10 ^ 48)%Z. rewrite !mult_IZR. lra.
Qed.
Lemma ln_ten z : 10 <= z -> 2.3 <= ln z.
Proof.
  intros Hz. assert (A : ln (bpow radix2 93) <= ln (10 ^ 28)) by (apply ln_mono; [apply bpow_gt_0|change (bpow radix2 93) with (IZR (2 ^ 93)); rewrite pow_IZR; apply IZR_le; vm_compute; discriminate]).
  rewrite ln_bpow, ln_pow in A by lra. replace (INR 28) with 28 in A by (rewrite INR_IZR_INZ; reflexivity). pose proof ln2_low. pose proof (ln_mono 10 z ltac:(lra) Hz). lra.
Qed.
Lemma ln_bounds z : 11 <= z <= bpow radix2 32 -> 2 <= ln z <= 23.
Proof.
  intros [A B]. split.
  - rewrite <- (ln_exp 2). apply ln_mono; [apply exp_pos|]. replace 2 with (1 + 1) by ring. rewrite exp_plus. pose proof exp_le_3 as E3. pose proof (exp_pos 1). apply Rle_trans with (3 * 3); [apply Rmult_le_compat; lra|lra].
  - apply Rle_trans with (ln (bpow radix2 32)); [apply ln_mono; lra|]. rewrite ln_bpow. pose proof ln2_small. lra.
Qed.
Lemma ln_fact_big n : (10 <= n)%nat -> 13 <= ln (INR (fact n)).
Proof.
  intros Hn. rewrite <- (ln_exp 13). apply ln_mono; [apply exp_pos|]. apply Rle_trans with (3 ^ 13).
  - replace 13 with (INR 13 * 1) at 1 by (rewrite INR_IZR_INZ; cbn; ring). assert (X : forall k, exp (INR k * 1) <= 3 ^ k). { induction k as [|k IH]; [cbn [INR pow]; rewrite Rmult_0_l, exp_0; lra|]. rewrite S_INR, Rmult_plus_distr_r, exp_plus, Rmult_1_l. cbn [pow]. rewrite Rmult_comm. pose proof exp_le_3. apply Rmult_le_compat; try (left; apply exp_pos); auto. } apply X.
  - apply Rle_trans with (INR (fact 10)); [|apply le_INR, fact_le; lia]. rewrite INR_IZR_INZ, pow_IZR. apply IZR_le. vm_compute. discriminate.
Qed.
Theorem log_factorial_double m (e l : spec_float -> spec_float) n :
  (forall x, finite_double x -> 11 <= real x <= bpow radix2 32 -> log_accurate_at l x) -> (10 <= n < 2 ^ 32 - 1)%Z ->
  let N := IZR n + 1 in
  exists v, log_factorial (H := B64 m) (H0 := Btrans e l) n = Some (Ret v) /\ fl v /\ Rabs (val v - ln (INR (fact (Z.to_nat n)))) <= 32 * u64 * (N * ln N) + 1 / 30000 / N ^ 7.
Proof.
  intros Hl Hn N. pose proof u64_pos as [U0 _]. pose proof u_tiny16 as U. pose proof eta64_pos as E0. pose proof eta_u as E1. assert (U' : u64 <= 1 / 5000000000000000) by lra.
  assert (W : uwrap (n + 1) = (n + 1)%Z) by (unfold uwrap; apply Z.mod_small; lia). unfold log_factorial. destruct (Z.eqb_spec n 0) as [X|_]; [lia|]. destruct (Z.eqb_spec n 1) as [X|_]; [lia|]. cbn [orb]. unfold gamma_cutoff at 1. destruct (Z.ltb_spec n 10) as [X|_]; [lia|]. rewrite W. change (nofZ (Num := B64 m) (n + 1)) with (b64_ofZ (n + 1)).
  destruct (ofZ_whole (n + 1) ltac:(lia)) as [Fz Vz]. rewrite plus_IZR in Vz. fold N in Vz. assert (HN : 11 <= N <= bpow radix2 32). { unfold N. rewrite <- plus_IZR. change (bpow radix2 32) with (IZR (2 ^ 32)). split; apply IZR_le; lia. }
  set (z := b64_ofZ (n + 1)) in *. rewrite log_gamma_far_double by (auto; lra).
  destruct (Hl z (proj1 (fl_iff _) Fz) ltac:(change (real z) with (val z); lra)) as [FL BL]. apply fl_iff in FL. change (real (l z)) with (val (l z)) in BL. change (real z) with (val z) in BL. change half_ulp with u64 in BL. change half_tiny with eta64 in BL. rewrite Vz in BL.
  pose proof (ln_bounds N HN) as HL. rewrite (Rabs_pos_eq (ln N)) in BL by lra. destruct constant_ok as (Fc & Bc & HK). set (c := SFdiv prec64 emax64 (SFadd prec64 emax64 _ _) (b64_ofZ 2)) in *. set (K := ln (2 * PI) / 2) in *.
  pose proof (ln_ten N ltac:(lra)) as L10. destruct (start_close N (ln N) (val (l z)) (val c) K ltac:(lra) ltac:(lra) BL HK Bc) as (O1 & O2 & O3 & Ba & HM & Aup). cbv zeta in *. set (M := N * ln N) in *. set (a := (N - 1 / 2) * ln N - N + K) in *.
  (* the start in doubles *)
  destruct (ofZ_whole 0 ltac:(lia)) as [F0 V0]. destruct (ofZ_whole 1 ltac:(lia)) as [F1 V1].
  assert (Hh : fl (SFdiv prec64 emax64 (b64_ofZ 1) (b64_ofZ 2)) /\ val (SFdiv prec64 emax64 (b64_ofZ 1) (b64_ofZ 2)) = / 2) by (split; [split; vm_compute; reflexivity|vm_compute; lra]). destruct Hh as [Fh Vh]. set (hf := SFdiv prec64 emax64 (b64_ofZ 1) (b64_ofZ 2)) in *.
  assert (B30 : bpow radix2 40 <= big) by (apply bpow_le; lia). assert (B30' : bpow radix2 32 <= bpow radix2 40) by (apply bpow_le; lia).
  destruct (sub_ok z hf Fz Fh ltac:(rewrite Vz, Vh, Rabs_pos_eq; lra)) as [Fs1 Es1]. rewrite Vz, Vh in Es1. destruct (mul_ok _ _ Fs1 FL ltac:(rewrite Es1; lra)) as [Fp Ep]. rewrite Es1 in Ep. set (p := SFmul prec64 emax64 (SFsub prec64 emax64 z hf) (l z)) in *.
  assert (Pb : Rabs (val p) <= big). { rewrite Ep. apply Rle_trans with (bpow radix2 40); [apply rnd_abs_le; [lia|exact O1]|exact B30]. }
  destruct (sub_ok p (b64_ofZ 0) Fp F0 ltac:(rewrite V0, Rminus_0_r; exact Pb)) as [Fp0 Ep0]. rewrite V0, Rminus_0_r, (rnd_idem p Fp), Ep in Ep0. set (p0 := SFsub prec64 emax64 p (b64_ofZ 0)) in *.
  destruct (sub_ok p0 z Fp0 Fz ltac:(rewrite Ep0, Vz; lra)) as [Fp1 Ep1]. rewrite Ep0, Vz in Ep1. set (p1 := SFsub prec64 emax64 p0 z) in *.
  destruct (add_ok p1 c Fp1 Fc ltac:(rewrite Ep1; lra)) as [Fst Est]. rewrite Ep1 in Est. set (st := SFadd prec64 emax64 p1 c) in *. rewrite <- Est in Ba.
  (* the powers of 1/z *)
  assert (I : 0 < / N <= 1 / 11) by (split; [apply Rinv_0_lt_compat; lra|replace (1 / 11) with (/ 11) by lra; apply Rinv_le_contravar; lra]). assert (B1 : 1 <= big) by (apply (bpow_le radix2 0 1023); lia). assert (IN : 1 / N = / N) by (unfold Rdiv; ring).
  destruct (div_ok (b64_ofZ 1) z F1 Fz ltac:(rewrite Vz; lra) ltac:(rewrite V1, Vz, IN, Rabs_pos_eq; lra)) as [Fw Ew]. rewrite V1, Vz, IN in Ew. set (w := SFdiv prec64 emax64 (b64_ofZ 1) z) in *.
  assert (Bw : Rabs (val w - / N) <= 0.1 * u64). { rewrite Ew. pose proof (rnd_err (/ N)) as R. rewrite (Rabs_pos_eq (/ N)) in R by lra. assert (u64 * / N <= u64 * (1 / 11)) by (apply Rmult_le_compat_l; lra). lra. }
  apply Rabs_le_inv in Bw as Bw'. assert (W1 : 0 <= val w <= 0.1). { split; [rewrite Ew; apply rnd_nonneg; lra|lra]. } assert (W2 : 0 <= val w * val w <= 0.01) by (split; [apply Rmult_le_pos; lra|replace 0.01 with (0.1 * 0.1) by lra; apply Rmult_le_compat; lra]).
  destruct (mul_ok w w Fw Fw ltac:(rewrite Rabs_pos_eq; lra)) as [Fq Eq]. set (q := SFmul prec64 emax64 w w) in *.
  assert (Bq : Rabs (val q - / N * / N) <= u64 / 10).
  { rewrite Eq. pose proof (rnd_err (val w * val w)) as R. rewrite (Rabs_pos_eq (val w * val w)) in R by lra. assert (u64 * (val w * val w) <= u64 * 0.01) by (apply Rmult_le_compat_l; lra).
    replace (rnd (val w * val w) - / N * / N) with ((rnd (val w * val w) - val w * val w) + (val w - / N) * (val w + / N)) by ring. eapply Rle_trans; [apply Rabs_triang|]. rewrite Rabs_mult, (Rabs_pos_eq (val w + / N)) by lra. assert (Rabs (val w - / N) * (val w + / N) <= 0.1 * u64 * 0.2) by (apply Rmult_le_compat; try apply Rabs_pos; lra). lra. }
  (* the sum it approximates *)
  set (F := ln (INR (fact (Z.to_nat n)))). assert (EN : INR (Z.to_nat n) + 1 = N) by (unfold N; rewrite INR_IZR_INZ, Z2Nat.id by lia; reflexivity). pose proof (stirling_bounds (Z.to_nat n)) as SB. cbv zeta in SB. rewrite EN in SB. fold F in SB. unfold stirl in SB. fold K a in SB.
  assert (SP : forall k, (k <= 10)%nat -> Rabs (a + partial 0 N k - F) <= (if Nat.ltb k 3 then Rabs (term 0 N k) else 1 / 30000 / N ^ 7)) by (intros k Hk; apply (partial_close 0 N F a k); [lra|exact Hk|exact SB]).
  assert (F13 : 13 <= F) by (apply ln_fact_big; lia). destruct (term_small N 0 ltac:(lra) ltac:(lia)) as (T1 & T2). pose proof (SP 0%nat ltac:(lia)) as S0. cbn [Nat.ltb Nat.leb] in S0. apply Rabs_le_inv in S0. assert (A13 : 12.98 <= a) by lra.
  (* the smallest term *)
  assert (UM : 0 <= u64 * M) by (apply Rmult_le_pos; lra). assert (UM1 : u64 * M <= 1 / 5000000000000000 * 100000000000) by (apply Rmult_le_compat; lra). apply Rabs_le_inv in Ba as Ba'. assert (Sb : 12.97 <= val st <= 1.01 * M) by lra.
  destruct (abs_ok st Fst) as [Fab Eab]. rewrite Rabs_pos_eq in Eab by lra. destruct ulp_ok as [Fu Eu]. assert (Eu2 : bpow radix2 (-52) = 2 * u64) by (unfold u64; change (-52)%Z with (1 + -53)%Z; rewrite bpow_plus; reflexivity). rewrite Eu2 in Eu. set (ulp := SFldexp prec64 emax64 (b64_ofZ 1) (-52)) in *.
  assert (Pr : 25.94 * u64 <= val st * (2 * u64) <= 2.02 * (u64 * M)). { split; [replace (25.94 * u64) with (12.97 * (2 * u64)) by lra|replace (2.02 * (u64 * M)) with (1.01 * M * (2 * u64)) by lra]; apply Rmult_le_compat_r; lra. }
  destruct (mul_ok (SFabs st) ulp Fab Fu ltac:(rewrite Eab, Eu, Rabs_pos_eq; lra)) as [Fsm Esm]. rewrite Eab, Eu in Esm. set (small := SFmul prec64 emax64 (SFabs st) ulp) in *.
  assert (Bsm : 25 * u64 <= val small <= 2.1 * (u64 * M)). { rewrite Esm. pose proof (rnd_err (val st * (2 * u64))) as R. rewrite (Rabs_pos_eq (val st * (2 * u64))) in R by lra. assert (u64 * (val st * (2 * u64)) <= u64 * (2.02 * (u64 * M))) by (apply Rmult_le_compat_l; lra). assert (u64 * (u64 * M) <= u64 * 0.001) by (apply Rmult_le_compat_l; lra). apply Rabs_le_inv in R. assert (22 * u64 <= u64 * M) by (rewrite (Rmult_comm u64); apply Rmult_le_compat_r; lra). lra. }
  destruct (loop m N q small a M ltac:(lra) Fq Bq Fsm Bsm HM ltac:(lra) 10 0 w st ltac:(lia) Fw) as (k & v & Hk & Ev & Fv & Bv & Tk); [change (2 * 0 + 1)%nat with 1%nat; rewrite pow_1; lra|exact Fst|cbn [pre INR]; rewrite Rplus_0_r, Rmult_0_r, Rplus_0_r; exact Ba|].
  exists v. split; [|split; [exact Fv|]].
  { transitivity (Some (series_loop (H := B64 m) (skipn 0 (coeffs (H := B64 m))) w q small st)); [reflexivity|]. rewrite Ev. reflexivity. }
  pose proof (SP k Hk) as S1. assert (K10 : INR k <= 10) by (change 10 with (IZR (Z.of_nat 10)); rewrite <- INR_IZR_INZ; apply le_INR; lia). assert (KU : INR k * (u64 * M) <= 10 * (u64 * M)) by (apply Rmult_le_compat_r; lra).
  assert (P7 : 0 < 1 / 30000 / N ^ 7) by (apply Rdiv_lt_0_compat; [lra|apply pow_lt; lra]). replace (val v - F) with ((val v - (a + partial 0 N k)) + (a + partial 0 N k - F)) by ring. eapply Rle_trans; [apply Rabs_triang|]. replace (32 * u64 * M) with (32 * (u64 * M)) by ring.
  destruct (Nat.ltb k 3); lra.
Qed.

Lemma ln2_fine : ln 2 <= 0.6932.
Proof.
  destruct log2_within as [_ W2]. rewrite ten52 in W2. assert (T : 0 < IZR (10 ^ 52)) by (apply IZR_lt; reflexivity). eapply Rle_trans; [exact W2|]. apply Rmult_le_reg_r with (IZR (10 ^ 52)); [exact T|]. unfold Rdiv. rewrite Rmult_assoc, Rinv_l, Rmult_1_r by lra.
  apply Rle_trans with (IZR (6932 * 10 ^ 48)); [apply IZR_le; vm_compute; discriminate|]. right. change (10 ^ 52)%Z with (10000 * 10 ^ 48)%Z. rewrite !mult_IZR. lra.
Qed.
Lemma fact_170 n : (n <= 170)%nat -> ln (INR (fact n)) <= 708.
Proof.
  intros Hn. assert (Z : forall k, Z.of_nat (fact k) = fold_left (fun a i => a * Z.of_nat i)%Z (seq 1 k) 1%Z).
  { induction k as [|k IH]; [reflexivity|]. rewrite seq_S, fold_left_app, <- IH. cbn [fold_left]. replace (1 + k)%nat with (S k) by lia. rewrite fact_simpl, Nat2Z.inj_mul. lia. }
  assert (B : INR (fact n) <= bpow radix2 1020).
  { apply Rle_trans with (IZR (fold_left (fun a i => a * Z.of_nat i)%Z (seq 1 170) 1%Z)).
    - rewrite <- Z. rewrite INR_IZR_INZ. apply IZR_le. apply Nat2Z.inj_le. apply fact_le. exact Hn.
    - change (bpow radix2 1020) with (IZR (2 ^ 1020)). apply IZR_le. vm_compute. discriminate. }
  apply Rle_trans with (ln (bpow radix2 1020)); [apply ln_mono; [apply INR_fact_lt_0|exact B]|]. rewrite ln_bpow. pose proof ln2_fine. lra.
Qed.
Theorem factorial_double m (e l : spec_float -> spec_float) n :
  (forall h, finite_double h -> 0 <= real h <= 709 -> exp_accurate_at e h) ->
  (forall x, finite_double x -> 11 <= real x <= bpow radix2 32 -> log_accurate_at l x) -> (10 <= n <= 170)%Z ->
  let N := IZR n + 1 in let f := INR (fact (Z.to_nat n)) in
  exists v, factorial (H := B64 m) (H0 := Btrans e l) n = Some (Ret v) /\ fl v /\ Rabs (val v - f) <= (33 * u64 * (N * ln N) + 3 * u64 + 1 / 29000 / N ^ 7) * f.
Proof.
  intros He Hl Hn N f. destruct (log_factorial_double m e l n Hl ltac:(lia)) as (v & E & Fv & B). fold N f in B.
  assert (Fp : 0 < f) by apply INR_fact_lt_0. pose proof (ln_fact_big (Z.to_nat n) ltac:(lia)) as L1. pose proof (fact_170 (Z.to_nat n) ltac:(lia)) as L2. fold f in L1, L2.
  assert (HN : 11 <= N <= bpow radix2 32). { unfold N. rewrite <- plus_IZR. change (bpow radix2 32) with (IZR (2 ^ 32)). split; apply IZR_le; lia. } pose proof (ln_bounds N HN) as HL. assert (N171 : N <= 171) by (unfold N; rewrite <- plus_IZR; apply IZR_le; lia).
  pose proof u64_pos as [U0 _]. pose proof u_tiny16 as U. assert (M1 : 0 <= N * ln N <= 171 * 23) by (split; [apply Rmult_le_pos; lra|apply Rmult_le_compat; lra]). assert (UM : u64 * (N * ln N) <= 1 / 5000000000000000 * (171 * 23)) by (apply Rmult_le_compat; lra). assert (UM0 : 0 <= u64 * (N * ln N)) by (apply Rmult_le_pos; lra).
  assert (P7 : 0 < / N ^ 7 <= / 11 ^ 7) by (split; [apply Rinv_0_lt_compat, pow_lt; lra|apply Rinv_le_contravar; [apply pow_lt; lra|apply pow_incr; lra]]).
  set (W := 32 * u64 * (N * ln N) + 1 / 30000 / N ^ 7) in *. assert (HW : W <= 1 / 1000) by (unfold W, Rdiv; unfold Rdiv in *; lra).
  apply Rabs_le_inv in B as B'. assert (W0 : 0 <= W) by (unfold W, Rdiv; unfold Rdiv in *; lra). destruct (He v (proj1 (fl_iff _) Fv) ltac:(change (real v) with (val v); lra)) as [Fe Be].
  exists (e v). split; [|split; [now apply fl_iff|]].
  - unfold factorial. unfold log_factorial in E. destruct (Z.eqb_spec n 0) as [X|_]; [lia|]. destruct (Z.eqb_spec n 1) as [X|_]; [lia|]. cbn [orb] in *. unfold gamma_cutoff at 1. unfold gamma_cutoff at 1 in E. destruct (Z.ltb_spec n 10) as [X|_]; [lia|]. rewrite E. reflexivity.
  - change (real (e v)) with (val (e v)) in Be. change (real v) with (val v) in Be. change half_ulp with u64 in Be. pose proof (exp_shift (ln f) (val v) (val (e v)) W B HW Be) as Q. rewrite exp_ln in Q by exact Fp. eapply Rle_trans; [exact Q|]. apply Rmult_le_compat_r; [lra|]. unfold W, Rdiv. unfold Rdiv in *. lra.
Qed.
