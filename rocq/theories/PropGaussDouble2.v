(** C61 in doubles: GaussianConditional at the mean and PoissonConditional at 0. *)
From Coq Require Import ZArith Reals Bool SpecFloat Lra Lia.
From Flocq Require Import Core IEEE754.BinarySingleNaN Mult_error.
From Verif Require Import Base Scalar OrdLib RLib B64Lib B64Ops FloatOps ConstSpec RoundLib RoundProofs RoundProofs2 SegDouble BallDouble OwnDouble PropBoxDouble GaussDouble PropGaussDouble PropLogGammaDouble PropProb MiniballModel.
From Verif Require Import ProbModel ProbDoubleModel ProbSpec ProbDoubleSpec RoundSpec.
Open Scope R_scope.

(** GaussianConditional(mean, stddev, mean) in doubles, for a standard deviation of either sign: the density at the mean divided by the probability 1/2 to be
    at or above it, with a relative error of at most 8 rounding errors, and without a single round of the loops. *)
Theorem C61_gaussian_conditional_mean_double_partial : forall (m : libm) (e l : spec_float -> spec_float) steps mean stddev tail,
  (forall h, finite_double h -> -300 <= real h <= 0 -> exp_accurate_at e h) ->
  finite_double mean -> finite_double stddev -> bpow radix2 (-300) <= Rabs (real stddev) <= bpow radix2 300 ->
  normal_tail (real mean) (real stddev) tail ->
  let p := normal_density (real mean) (real stddev) (real mean) / tail (real mean) in
  exists r, gaussian_conditional (H := B64 m) (H0 := Btrans e l) steps mean stddev mean = Some (Ret r) /\ finite_double r /\
    Rabs (real r - p) <= 8 * half_ulp * p.
Proof.
  intros m e l steps mu s tail He Fm Fs Bs [T _] p.
  assert (S1 : 0 < Rabs (real s)) by (pose proof (bpow_gt_0 radix2 (-300)); lra).
  destruct (C60_gaussian_double m e l mu s mu He Fm Fs Fm Bs ltac:(rewrite Rminus_diag_eq, Rabs_R0 by reflexivity; lra)) as (g & Eg & Fg & Bg).
  assert (D0 : (real mu - real mu) / real s = 0) by (unfold Rdiv; ring). rewrite D0 in Bg. set (q := normal_density (real mu) (real s) (real mu)) in *.
  assert (Q0 : 0 <= q <= bpow radix2 301).
  { unfold q, normal_density. rewrite D0. pose proof PI_RGT_0 as Pp. assert (K : 1 <= sqrt (2 * PI)) by (rewrite <- sqrt_1 at 1; apply sqrt_le_1; pose proof PI2_3_2; lra).
    replace (- 0 ^ 2 / 2) with 0 by field. rewrite exp_0. assert (RS : 0 < / Rabs (real s) <= bpow radix2 300) by (split; [now apply Rinv_0_lt_compat|]; change (bpow radix2 300) with (bpow radix2 (- (-300))); rewrite bpow_opp; apply Rinv_le_contravar; [apply bpow_gt_0|lra]).
    assert (RK : 0 < / sqrt (2 * PI) <= 1) by (split; [apply Rinv_0_lt_compat; lra|rewrite <- Rinv_1; apply Rinv_le_contravar; lra]). assert (BB : bpow radix2 300 <= bpow radix2 301) by (apply bpow_le; lia).
    unfold Rdiv. rewrite Rinv_mult, Rmult_1_l. split; [apply Rmult_le_pos; lra|]. apply Rle_trans with (bpow radix2 300 * 1); [apply Rmult_le_compat; lra|lra]. }
  apply fl_iff in Fm, Fs, Fg. change (real s) with (val s) in S1. assert (S0 : val s <> 0) by (intros Z; rewrite Z, Rabs_R0 in S1; lra).
  assert (B0 : 0 <= big) by apply bpow_ge_0.
  destruct (sub_ok mu mu Fm Fm ltac:(rewrite Rminus_diag_eq, Rabs_R0 by reflexivity; exact B0)) as [Fd Ed]. rewrite Rminus_diag_eq, rnd_0 in Ed by reflexivity. set (d := SFsub prec64 emax64 mu mu) in *.
  destruct (div_ok d s Fd Fs S0 ltac:(rewrite Ed; unfold Rdiv; rewrite Rmult_0_l, Rabs_R0; exact B0)) as [Fn En]. rewrite Ed in En. unfold Rdiv in En. rewrite Rmult_0_l, rnd_0 in En. set (dn := SFdiv prec64 emax64 d s) in *.
  destruct (mul_ok dn dn Fn Fn ltac:(rewrite En, Rmult_0_l, Rabs_R0; exact B0)) as [Fq Eq]. rewrite En, Rmult_0_l, rnd_0 in Eq. set (dd := SFmul prec64 emax64 dn dn) in *.
  assert (F2 : fl (b64_ofZ 2)) by (split; vm_compute; reflexivity). assert (V2 : val (b64_ofZ 2) = 2) by (vm_compute; lra).
  destruct (div_ok dd (b64_ofZ 2) Fq F2 ltac:(rewrite V2; lra) ltac:(rewrite Eq; unfold Rdiv; rewrite Rmult_0_l, Rabs_R0; exact B0)) as [F4 E4]. rewrite Eq in E4. unfold Rdiv in E4. rewrite Rmult_0_l, rnd_0 in E4. set (d2 := SFdiv prec64 emax64 dd (b64_ofZ 2)) in *.
  assert (F0 : fl (b64_ofZ 0)) by (split; vm_compute; reflexivity). assert (V0 : val (b64_ofZ 0) = 0) by reflexivity.
  set (h := SFdiv prec64 emax64 (b64_ofZ 1) (b64_ofZ 2)) in *. assert (Fh : fl h) by (split; vm_compute; reflexivity). assert (Vh : val h = / 2) by (vm_compute; lra).
  set (cut := SFadd prec64 emax64 b64_sqrt3 (SFmul prec64 emax64 (b64_ofZ 10) (SFldexp prec64 emax64 (b64_ofZ 1) (-52)))) in *. assert (Fc : fl cut) by (split; vm_compute; reflexivity). assert (Vc : 1 <= val cut) by (vm_compute; lra).
  assert (Fs0 : SFeqb s (b64_ofZ 0) = false) by (rewrite (eqb_ok _ _ Fs F0), V0; apply Req_bool_false; exact S0).
  exists (SFdiv prec64 emax64 g h). apply Rabs_le_inv in Bg as Bg'. pose proof u64_pos as [U0 U1]. assert (UT : u64 <= 1 / 1000000000000) by (pose proof u_tiny; lra). change half_ulp with u64 in *. change (real g) with (val g) in *.
  assert (UQ : 0 <= u64 * q <= u64 * bpow radix2 301) by (split; [apply Rmult_le_pos; lra|apply Rmult_le_compat_l; lra]).
  assert (E301 : bpow radix2 301 <= big / 4) by (replace (big / 4) with (bpow radix2 1021) by (unfold big; change 1023%Z with (1021 + 2)%Z; rewrite bpow_plus; change (bpow radix2 2) with 4; field); apply bpow_le; lia).
  assert (U8 : 8 * (u64 * q) <= q) by (replace (8 * (u64 * q)) with ((8 * u64) * q) by ring; rewrite <- (Rmult_1_l q) at 2; apply Rmult_le_compat_r; lra).
  assert (G2 : Rabs (val g / val h) <= big) by (rewrite Vh; unfold Rdiv; rewrite Rinv_inv; apply Rabs_le; lra).
  destruct (div_ok g h Fg Fh ltac:(rewrite Vh; lra) G2) as [Fr Er]. rewrite Vh in Er. replace (val g / / 2) with (val g * 2) in Er by field.
  rewrite rnd_format in Er by (change 2 with (bpow radix2 1); apply mult_bpow_pos_exact_FLT; [now apply fl_format|lia]).
  split; [|split; [apply fl_iff; exact Fr|]].
  - unfold gaussian_conditional. change (neqb (Num := B64 m) s (n0 (H := B64 m))) with (SFeqb s (b64_ofZ 0)). rewrite Fs0. cbn [negb oassert rbind].
    change (nsub (Num := B64 m) mu mu) with d. change (ndiv (Num := B64 m) d s) with dn. change (nmul (Num := B64 m) dn dn) with dd. change (ndiv (Num := B64 m) dd (n2 (H := B64 m))) with d2.
    change (nltb (Num := B64 m) dn _) with (SFltb dn cut). rewrite (ltb_ok _ _ Fn Fc), En, Rlt_bool_true by lra.
    assert (I : igamc (H := B64 m) (H0 := Btrans e l) steps (nhalf (H := B64 m)) d2 = Some (Ret (b64_ofZ 1))).
    { unfold igamc. cbn [igam_]. change (nhalf (H := B64 m)) with h. change (nleb (Num := B64 m) (n0 (H := B64 m)) d2) with (SFleb (b64_ofZ 0) d2). change (nleb (Num := B64 m) (n0 (H := B64 m)) h) with true.
      change (neqb (Num := B64 m) h (n0 (H := B64 m))) with false. change (neqb (Num := B64 m) d2 (n0 (H := B64 m))) with (SFeqb d2 (b64_ofZ 0)). rewrite (leb_ok _ _ F0 F4), (eqb_ok _ _ F4 F0), V0, E4, Rle_bool_true, Req_bool_true by lra. reflexivity. }
    rewrite I. cbn [rbind ret]. change (nltb (Num := B64 m) (n0 (H := B64 m)) dn) with (SFltb (b64_ofZ 0) dn). rewrite (ltb_ok _ _ F0 Fn), V0, En, Rlt_bool_false by lra. rewrite Eg. cbn [rbind]. unfold ret. f_equal.
  - change (real (SFdiv prec64 emax64 g h)) with (val (SFdiv prec64 emax64 g h)). rewrite Er. unfold p. rewrite T. fold q. replace (q / (1 / 2)) with (q * 2) by field. replace (val g * 2 - q * 2) with ((val g - q) * 2) by ring. rewrite Rabs_mult, (Rabs_pos_eq 2) by lra.
    replace (8 * u64 * (q * 2)) with ((4 * 0 ^ 2 + 8) * u64 * q * 2) by ring. apply Rmult_le_compat_r; [lra|exact Bg].
Qed.
Print Assumptions C61_gaussian_conditional_mean_double_partial.

(** Non-vacuity: such an exponential exists, and so does the tail of the distribution with mean 1 and standard deviation 3. *)
Example C61_gaussian_conditional_mean_double_example : (forall h, finite_double h -> -300 <= real h <= 0 -> exp_accurate_at best_exp h) /\
  finite_double (b64_ofZ 1) /\ finite_double (b64_ofZ (-3)) /\ bpow radix2 (-300) <= Rabs (real (b64_ofZ (-3))) <= bpow radix2 300 /\ exists tail, normal_tail (real (b64_ofZ 1)) (real (b64_ofZ (-3))) tail.
Proof.
  split; [apply C60_gaussian_double_example|]. split; [apply fl_iff; split; vm_compute; reflexivity|]. split; [apply fl_iff; split; vm_compute; reflexivity|]. split; [|apply C61_normal_tail].
  assert (V : real (b64_ofZ (-3)) = -3) by (vm_compute; lra). rewrite V, Rabs_left by lra. split; [apply Rle_trans with 1; [apply (bpow_le radix2 (-300) 0); lia|lra]|apply Rle_trans with 4; [lra|apply (bpow_le radix2 2 300); lia]].
Qed.

(** PoissonConditional(mean, 0) in doubles, where to be at least 0 is certain: the probability of 0, as accurate as the exponential. *)
Theorem C61_poisson_conditional_0_double : forall (m : libm) (e l : spec_float -> spec_float) steps mean,
  (forall h, finite_double h -> -699 <= real h <= 0 -> exp_accurate_at e h) -> finite_double mean -> 0 < real mean <= 699 ->
  exists r, poisson_conditional (H := B64 m) (H0 := Btrans e l) steps mean 0 = Some (Ret r) /\ finite_double r /\
    Rabs (real r - poisson_pmf (real mean) 0) <= 2 * half_ulp * poisson_pmf (real mean) 0.
Proof.
  intros m e l steps mu He Fm Bm. apply fl_iff in Fm. destruct (opp_ok mu Fm) as [Fo Eo]. change (real mu) with (val mu) in *.
  assert (F0 : fl (b64_ofZ 0)) by (split; vm_compute; reflexivity). assert (V0 : val (b64_ofZ 0) = 0) by reflexivity.
  destruct (He (SFopp mu) (proj1 (fl_iff _) Fo) ltac:(change (real (SFopp mu)) with (val (SFopp mu)); rewrite Eo; lra)) as [Fe Be]. change (real (SFopp mu)) with (val (SFopp mu)) in Be. rewrite Eo in Be.
  exists (e (SFopp mu)). split; [|split; [exact Fe|]].
  - unfold poisson_conditional. change (nleb (Num := B64 m) (n0 (H := B64 m)) mu) with (SFleb (b64_ofZ 0) mu). change (neqb (Num := B64 m) mu (n0 (H := B64 m))) with (SFeqb mu (b64_ofZ 0)).
    rewrite (leb_ok _ _ F0 Fm), (eqb_ok _ _ Fm F0), V0, Rle_bool_true, Req_bool_false by lra. reflexivity.
  - unfold poisson_pmf. cbn [pow fact INR]. replace (exp (- val mu) * 1 / 1) with (exp (- val mu)) by field. exact Be.
Qed.
Print Assumptions C61_poisson_conditional_0_double.
Example C61_poisson_conditional_0_double_example : (forall h, finite_double h -> -699 <= real h <= 0 -> exp_accurate_at best_exp h) /\ finite_double (b64_ofZ 1) /\ 0 < real (b64_ofZ 1) <= 699.
Proof. split; [intros h _ B; apply best_exp_wide; lra|]. split; [apply fl_iff; split; vm_compute; reflexivity|]. assert (V : real (b64_ofZ 1) = 1) by (vm_compute; lra). lra. Qed.
