(** LogGamma and Gamma in doubles at every argument from the cutoff on: proofs. *)
From Coq Require Import ZArith Reals Bool List SpecFloat Lia Lra.
From Flocq Require Import Core IEEE754.BinarySingleNaN.
From Verif Require Import Base Scalar OrdLib RLib B64Lib B64Ops FloatOps ConstSpec RoundLib RoundProofs RSpec RoundProofs2 SegDouble BallDouble MiniballModel LitModel LitProofs.
From Verif Require Import ProbModel ProbDoubleModel ProbDoubleSpec RoundSpec Stirling GammaSpec GammaProofs ProbProofs GaussDouble PoissonDouble SeriesDouble SeriesDouble2 LogGammaDouble.
Open Scope R_scope.

Lemma constant_low : 0.84 <= ln (2 * PI) / 2.
Proof.
  assert (A : ln (2 * 3) <= ln (2 * PI)) by (apply ln_mono; [lra|pose proof PI2_3_2; lra]). rewrite ln_mult in A by lra. assert (1 <= ln 3) by (rewrite <- (ln_exp 1) at 1; apply ln_mono; [apply exp_pos|apply exp_le_3]). pose proof ln2_low. lra.
Qed.
Lemma ln_far z : 10 <= z <= bpow radix2 32 -> 2.3 <= ln z <= 23.
Proof.
  intros [A B]. split; [now apply ln_ten|]. apply Rle_trans with (ln (bpow radix2 32)); [apply ln_mono; lra|]. rewrite ln_bpow. pose proof ln2_small. lra.
Qed.
Theorem log_gamma_double m (e l : spec_float -> spec_float) z g :
  (forall x, finite_double x -> 10 <= real x <= bpow radix2 32 -> log_accurate_at l x) -> fl z -> 10 <= val z <= bpow radix2 32 -> is_Gamma (val z) g ->
  let N := val z in
  0 < g /\ 12.5 <= ln g /\ exists v, log_gamma (H := B64 m) (H0 := Btrans e l) z = Some (Ret v) /\ fl v /\ Rabs (val v - ln g) <= 32 * u64 * (N * ln N) + 1 / 30000 / N ^ 7.
Proof.
  intros Hl Fz HN G N. pose proof u64_pos as [U0 _]. pose proof u_tiny16 as U. pose proof eta64_pos as E0. pose proof eta_u as E1. assert (U' : u64 <= 1 / 5000000000000000) by lra.
  fold N in HN, G. assert (Vz : val z = N) by reflexivity. rewrite log_gamma_far_double by (auto; fold N; lra).
  destruct (Hl z (proj1 (fl_iff _) Fz) ltac:(change (real z) with N; exact HN)) as [FL BL]. apply fl_iff in FL. change (real (l z)) with (val (l z)) in BL. change (real z) with (val z) in BL. fold N in BL. change half_ulp with u64 in BL. change half_tiny with eta64 in BL. 
  pose proof (ln_far N HN) as HL. rewrite (Rabs_pos_eq (ln N)) in BL by lra. destruct constant_ok as (Fc & Bc & HK). set (c := SFdiv prec64 emax64 (SFadd prec64 emax64 _ _) (b64_ofZ 2)) in *. set (K := ln (2 * PI) / 2) in *.
  destruct (start_close N (ln N) (val (l z)) (val c) K HN ltac:(lra) BL HK Bc) as (O1 & O2 & O3 & Ba & HM & Aup). cbv zeta in *. set (M := N * ln N) in *. set (a := (N - 1 / 2) * ln N - N + K) in *.
  (* the start in doubles *)
  destruct (ofZ_whole 0 ltac:(lia)) as [F0 V0]. destruct (ofZ_whole 1 ltac:(lia)) as [F1 V1].
  assert (Hh : fl (SFdiv prec64 emax64 (b64_ofZ 1) (b64_ofZ 2)) /\ val (SFdiv prec64 emax64 (b64_ofZ 1) (b64_ofZ 2)) = / 2) by (split; [split; vm_compute; reflexivity|vm_compute; lra]). destruct Hh as [Fh Vh]. set (hf := SFdiv prec64 emax64 (b64_ofZ 1) (b64_ofZ 2)) in *.
  assert (B30 : bpow radix2 40 <= big) by (apply bpow_le; lia). assert (B30' : bpow radix2 32 <= bpow radix2 40) by (apply bpow_le; lia).
  destruct (sub_ok z hf Fz Fh ltac:(rewrite Vz, Vh, Rabs_pos_eq; lra)) as [Fs1 Es1]. rewrite Vz, Vh in Es1. destruct (mul_ok _ _ Fs1 FL ltac:(rewrite Es1; lra)) as [Fp Ep]. rewrite Es1 in Ep. set (p := SFmul prec64 emax64 (SFsub prec64 emax64 z hf) (l z)) in *.
  assert (Pb : Rabs (val p) <= big). { rewrite Ep. apply Rle_trans with (bpow radix2 40); [apply rnd_abs_le; [lia|exact O1]|exact B30]. }
  destruct (sub_ok p (b64_ofZ 0) Fp F0 ltac:(rewrite V0, Rminus_0_r; exact Pb)) as [Fp0 Ep0]. rewrite V0, Rminus_0_r, (rnd_idem p Fp), Ep in Ep0. set (p0 := SFsub prec64 emax64 p (b64_ofZ 0)) in *.
  destruct (sub_ok p0 z Fp0 Fz ltac:(rewrite Ep0, Vz; lra)) as [Fp1 Ep1]. rewrite Ep0, Vz in Ep1. set (p1 := SFsub prec64 emax64 p0 z) in *.
  destruct (add_ok p1 c Fp1 Fc ltac:(rewrite Ep1; lra)) as [Fst Est]. rewrite Ep1 in Est. set (st := SFadd prec64 emax64 p1 c) in *. rewrite <- Est in Ba.
  (* the powers of 1/z *)
  assert (I : 0 < / N <= 1 / 10) by (split; [apply Rinv_0_lt_compat; lra|replace (1 / 10) with (/ 10) by lra; apply Rinv_le_contravar; lra]). assert (B1 : 1 <= big) by (apply (bpow_le radix2 0 1023); lia). assert (IN : 1 / N = / N) by (unfold Rdiv; ring).
  destruct (div_ok (b64_ofZ 1) z F1 Fz ltac:(rewrite Vz; lra) ltac:(rewrite V1, Vz, IN, Rabs_pos_eq; lra)) as [Fw Ew]. rewrite V1, Vz, IN in Ew. set (w := SFdiv prec64 emax64 (b64_ofZ 1) z) in *.
  assert (Bw : Rabs (val w - / N) <= 0.11 * u64). { rewrite Ew. pose proof (rnd_err (/ N)) as R. rewrite (Rabs_pos_eq (/ N)) in R by lra. assert (u64 * / N <= u64 * (1 / 10)) by (apply Rmult_le_compat_l; lra). lra. }
  apply Rabs_le_inv in Bw as Bw'. assert (W1 : 0 <= val w <= 0.101). { split; [rewrite Ew; apply rnd_nonneg; lra|lra]. } assert (W2 : 0 <= val w * val w <= 0.0103) by (split; [apply Rmult_le_pos; lra|apply Rle_trans with (0.101 * 0.101); [apply Rmult_le_compat; lra|lra]]).
  destruct (mul_ok w w Fw Fw ltac:(rewrite Rabs_pos_eq; lra)) as [Fq Eq]. set (q := SFmul prec64 emax64 w w) in *.
  assert (Bq : Rabs (val q - / N * / N) <= u64 / 10).
  { rewrite Eq. pose proof (rnd_err (val w * val w)) as R. rewrite (Rabs_pos_eq (val w * val w)) in R by lra. assert (u64 * (val w * val w) <= u64 * 0.0103) by (apply Rmult_le_compat_l; lra).
    replace (rnd (val w * val w) - / N * / N) with ((rnd (val w * val w) - val w * val w) + (val w - / N) * (val w + / N)) by ring. eapply Rle_trans; [apply Rabs_triang|]. rewrite Rabs_mult, (Rabs_pos_eq (val w + / N)) by lra. assert (Rabs (val w - / N) * (val w + / N) <= 0.11 * u64 * 0.202) by (apply Rmult_le_compat; try apply Rabs_pos; lra). lra. }
  (* the sum it approximates *)
  set (F := ln g). destruct (gamma_bounds N g ltac:(lra) G) as [Gp SB]. fold F in SB. unfold stirl in SB. fold K a in SB.
  assert (SP : forall k, (k <= 10)%nat -> Rabs (a + partial 0 N k - F) <= (if Nat.ltb k 3 then Rabs (term 0 N k) else 1 / 30000 / N ^ 7)) by (intros k Hk; apply (partial_close 0 N F a k); [lra|exact Hk|exact SB]).
  destruct (term_small N 0 ltac:(lra) ltac:(lia)) as (T1 & T2). pose proof (SP 0%nat ltac:(lia)) as S0. cbn [Nat.ltb Nat.leb] in S0. apply Rabs_le_inv in S0. assert (A13 : 12.68 <= a).
  { pose proof constant_low as K84. fold K in K84. assert ((N - 1 / 2) * 2.3 <= (N - 1 / 2) * ln N) by (apply Rmult_le_compat_l; lra). unfold a. lra. }
  (* the smallest term *)
  assert (UM : 0 <= u64 * M) by (apply Rmult_le_pos; lra). assert (UM1 : u64 * M <= 1 / 5000000000000000 * 100000000000) by (apply Rmult_le_compat; lra). apply Rabs_le_inv in Ba as Ba'. assert (Sb : 12.67 <= val st <= 1.01 * M) by lra.
  destruct (abs_ok st Fst) as [Fab Eab]. rewrite Rabs_pos_eq in Eab by lra. destruct ulp_ok as [Fu Eu]. assert (Eu2 : bpow radix2 (-52) = 2 * u64) by (unfold u64; change (-52)%Z with (1 + -53)%Z; rewrite bpow_plus; reflexivity). rewrite Eu2 in Eu. set (ulp := SFldexp prec64 emax64 (b64_ofZ 1) (-52)) in *.
  assert (Pr : 25.34 * u64 <= val st * (2 * u64) <= 2.02 * (u64 * M)). { split; [replace (25.34 * u64) with (12.67 * (2 * u64)) by lra|replace (2.02 * (u64 * M)) with (1.01 * M * (2 * u64)) by lra]; apply Rmult_le_compat_r; lra. }
  destruct (mul_ok (SFabs st) ulp Fab Fu ltac:(rewrite Eab, Eu, Rabs_pos_eq; lra)) as [Fsm Esm]. rewrite Eab, Eu in Esm. set (small := SFmul prec64 emax64 (SFabs st) ulp) in *.
  assert (Bsm : 25 * u64 <= val small <= 2.1 * (u64 * M)). { rewrite Esm. pose proof (rnd_err (val st * (2 * u64))) as R. rewrite (Rabs_pos_eq (val st * (2 * u64))) in R by lra. assert (u64 * (val st * (2 * u64)) <= u64 * (2.02 * (u64 * M))) by (apply Rmult_le_compat_l; lra). assert (u64 * (u64 * M) <= u64 * 0.001) by (apply Rmult_le_compat_l; lra). apply Rabs_le_inv in R. assert (22 * u64 <= u64 * M) by (rewrite (Rmult_comm u64); apply Rmult_le_compat_r; lra). lra. }
  destruct (loop m N q small a M ltac:(lra) Fq Bq Fsm Bsm HM ltac:(lra) 10 0 w st ltac:(lia) Fw) as (k & v & Hk & Ev & Fv & Bv & Tk); [change (2 * 0 + 1)%nat with 1%nat; rewrite pow_1; lra|exact Fst|cbn [pre INR]; rewrite Rplus_0_r, Rmult_0_r, Rplus_0_r; exact Ba|].
  split; [exact Gp|]. split; [lra|]. exists v. split; [|split; [exact Fv|]].
  { transitivity (Some (series_loop (H := B64 m) (skipn 0 (coeffs (H := B64 m))) w q small st)); [reflexivity|]. rewrite Ev. reflexivity. }
  pose proof (SP k Hk) as S1. assert (K10 : INR k <= 10) by (change 10 with (IZR (Z.of_nat 10)); rewrite <- INR_IZR_INZ; apply le_INR; lia). assert (KU : INR k * (u64 * M) <= 10 * (u64 * M)) by (apply Rmult_le_compat_r; lra).
  assert (P7 : 0 < 1 / 30000 / N ^ 7) by (apply Rdiv_lt_0_compat; [lra|apply pow_lt; lra]). replace (val v - F) with ((val v - (a + partial 0 N k)) + (a + partial 0 N k - F)) by ring. eapply Rle_trans; [apply Rabs_triang|]. replace (32 * u64 * M) with (32 * (u64 * M)) by ring.
  destruct (Nat.ltb k 3); lra.
Qed.

Theorem gamma_double m (e l : spec_float -> spec_float) z g :
  (forall h, finite_double h -> 0 <= real h <= 709 -> exp_accurate_at e h) ->
  (forall x, finite_double x -> 10 <= real x <= bpow radix2 32 -> log_accurate_at l x) -> fl z -> 10 <= val z <= 171 -> is_Gamma (val z) g -> g <= bpow radix2 1020 ->
  let N := val z in
  exists v, gamma (H := B64 m) (H0 := Btrans e l) z = Some (Ret v) /\ fl v /\ Rabs (val v - g) <= (33 * u64 * (N * ln N) + 3 * u64 + 1 / 29000 / N ^ 7) * g.
Proof.
  intros He Hl Fz H171 G Gb N. assert (HN : 10 <= N <= bpow radix2 32). { fold N in H171. split; [lra|]. apply Rle_trans with 171; [lra|]. change (bpow radix2 32) with (IZR (2 ^ 32)). apply IZR_le. lia. }
  destruct (log_gamma_double m e l z g Hl Fz HN G) as (Fp & L1 & v & E & Fv & B). fold N in B, H171.
  assert (L2 : ln g <= 708). { apply Rle_trans with (ln (bpow radix2 1020)); [apply ln_mono; auto|]. rewrite ln_bpow. pose proof ln2_fine. lra. }
  pose proof (ln_far N HN) as HL.
  pose proof u64_pos as [U0 _]. pose proof u_tiny16 as U. assert (M1 : 0 <= N * ln N <= 171 * 23) by (split; [apply Rmult_le_pos; lra|apply Rmult_le_compat; lra]). assert (UM : u64 * (N * ln N) <= 1 / 5000000000000000 * (171 * 23)) by (apply Rmult_le_compat; lra). assert (UM0 : 0 <= u64 * (N * ln N)) by (apply Rmult_le_pos; lra).
  assert (P7 : 0 < / N ^ 7 <= / 10 ^ 7) by (split; [apply Rinv_0_lt_compat, pow_lt; lra|apply Rinv_le_contravar; [apply pow_lt; lra|apply pow_incr; lra]]).
  set (W := 32 * u64 * (N * ln N) + 1 / 30000 / N ^ 7) in *. assert (HW : W <= 1 / 1000) by (unfold W, Rdiv; unfold Rdiv in *; lra).
  apply Rabs_le_inv in B as B'. assert (W0 : 0 <= W) by (unfold W, Rdiv; unfold Rdiv in *; lra). destruct (He v (proj1 (fl_iff _) Fv) ltac:(change (real v) with (val v); lra)) as [Fe Be].
  exists (e v). split; [|split; [now apply fl_iff|]].
  - unfold gamma. assert (Hh : fl (SFdiv prec64 emax64 (b64_ofZ 1) (b64_ofZ 2)) /\ val (SFdiv prec64 emax64 (b64_ofZ 1) (b64_ofZ 2)) = / 2) by (split; [split; vm_compute; reflexivity|vm_compute; lra]). destruct Hh as [Fh Vh].
    change (nleb (Num := B64 m) (nhalf (H := B64 m)) z) with (SFleb (SFdiv prec64 emax64 (b64_ofZ 1) (b64_ofZ 2)) z). rewrite (leb_ok _ _ Fh Fz), Vh. fold N. rewrite Rle_bool_true by lra. rewrite E. reflexivity.
  - change (real (e v)) with (val (e v)) in Be. change (real v) with (val v) in Be. change half_ulp with u64 in Be. pose proof (exp_shift (ln g) (val v) (val (e v)) W B HW Be) as Q. rewrite exp_ln in Q by exact Fp. eapply Rle_trans; [exact Q|]. apply Rmult_le_compat_r; [lra|]. unfold W, Rdiv. unfold Rdiv in *. lra.
Qed.
