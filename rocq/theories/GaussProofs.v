(** GaussianConditional over the whole line (C61). *)
From Coq Require Import ZArith Reals List Lra Lia Psatz Bool.
From Coquelicot Require Import Coquelicot.
From Flocq Require Import Core.Raux Core.Zaux.
From Verif Require Import Base Scalar RLib MiniballModel ProbModel ProbSpec ProbProofs ProbProofs3 ProbProofs4 ProbProofs5 ProbProofs6 ProbProofs7 GaussInt MillsProofs MillsProofs2 GaussSeries.
Open Scope R_scope.

Section Prob.
Context (eps : Epsilon).
Variable u : R.
#[local] Hint Extern 0 (Num R) => exact (Rnum eps) : typeclass_instances.
#[local] Hint Extern 0 (Trans R) => exact (Rtrans u) : typeclass_instances.

Lemma log_gamma_half : log_gamma (1 / 2) = Some (Ret (ln PI / 2)).
Proof.
  unfold log_gamma. cbn [log_gamma_]. change nhalf with (1 / 2). change (nltb (1 / 2) (1 / 2)) with (Rlt_bool (1 / 2) (1 / 2)). change (neqb (1 / 2) (1 / 2)) with (Req_bool (1 / 2) (1 / 2)). rewrite Rlt_bool_false, Req_bool_true by lra. reflexivity.
Qed.
Lemma root_half y : 0 < y -> exp (1 / 2 * ln (y * y / 2) - y * y / 2 - ln PI / 2) = y * dens y.
Proof.
  intros Hy. pose proof PI_RGT_0 as Pp. assert (Pz : 0 < y * y / 2) by nra. replace (1 / 2 * ln (y * y / 2) - y * y / 2 - ln PI / 2) with (- y ^ 2 / 2 + 1 / 2 * ln (y * y / 2) + - (1 / 2 * ln PI)) by (simpl; lra).
  rewrite !exp_plus, (exp_Ropp (1 / 2 * ln PI)). fold (Rpower (y * y / 2) (1 / 2)) (Rpower PI (1 / 2)). unfold dens, bell. replace (1 / 2) with (/ 2) by lra. rewrite !Rpower_sqrt by lra.
  assert (Es : sqrt (y * y / 2) = y / sqrt 2) by (rewrite sqrt_div_alt by lra; rewrite sqrt_square by lra; reflexivity). rewrite Es, sqrt_mult by lra. pose proof (sqrt_lt_R0 2 ltac:(lra)). pose proof (sqrt_lt_R0 PI Pp). field. split; lra.
Qed.
Lemma igamc_far y fuel : 0 < u < 1 -> 0 < y -> 3 / 2 <= y * y / 2 -> ln (/ u) * ln (/ u) < INR fuel ->
  exists c, igamc fuel (1 / 2) (y * y / 2) = Some (Ret (c * (y * dens y))) /\ igamc_nop fuel (1 / 2) (y * y / 2) = Some (Ret c) /\ 0 < c < Fr y /\ Fr y - c <= u * (ln (/ u) + 2) * Fr y.
Proof.
  intros Hu Hy Hz Hf. destruct (igamc_half y Hy Hz eps u Hu fuel Hf) as (c & E & B & D). exists c. split; [|auto]. unfold igamc. cbn [igam_]. set (z := y * y / 2) in *. change (nleb n0 z) with (Rle_bool 0 z). change (nleb n0 (1 / 2)) with (Rle_bool 0 (1 / 2)). rewrite !Rle_bool_true by lra. cbn [andb oassert rbind].
  change (neqb (1 / 2) n0) with (Req_bool (1 / 2) 0). change (neqb z n0) with (Req_bool z 0). rewrite !Req_bool_false by lra. change (nltb z (nadd (1 / 2) n1)) with (Rlt_bool z (1 / 2 + 1)). rewrite Rlt_bool_false by lra. rewrite log_gamma_half. cbn [rbind]. rewrite E. cbn [rbind].
  unfold ret. change (texp (nsub (nsub (nmul (1 / 2) (tlog z)) z) (ln PI / 2))) with (exp (1 / 2 * ln z - z - ln PI / 2)). unfold z. rewrite root_half by auto. reflexivity.
Qed.
Lemma igamc_near y : 0 < u < 1 -> 0 < y -> y * y / 2 < 3 / 2 ->
  exists N, forall fuel, (N <= fuel)%nat -> exists p, igamc fuel (1 / 2) (y * y / 2) = Some (Ret (1 - p)) /\ 0 < p <= exp (1 / 2) * (1 / 2 - ntail y) /\ exp (1 / 2) * (1 / 2 - ntail y) <= p * (1 + 3 / 2 * u).
Proof.
  intros Hu Hy Hz. set (z := y * y / 2) in *. assert (Pz : 0 < z) by (unfold z; nra). destruct (igam_nop_value eps u (1 / 2) z Hu ltac:(lra) ltac:(lra)) as (N & HN). exists N. intros fuel Hf. destruct (HN fuel Hf) as (K & HK & HB & E).
  exists (ps (1 / 2) z K * exp (1 / 2 * (ln z + 1) - z - ln PI / 2)). split.
  - unfold igamc. cbn [igam_]. change (nleb n0 z) with (Rle_bool 0 z). change (nleb n0 (1 / 2)) with (Rle_bool 0 (1 / 2)). rewrite !Rle_bool_true by lra. cbn [andb oassert rbind].
    change (neqb (1 / 2) n0) with (Req_bool (1 / 2) 0). change (neqb z n0) with (Req_bool z 0). rewrite !Req_bool_false by lra. change (nltb z (nadd (1 / 2) n1)) with (Rlt_bool z (1 / 2 + 1)). change (nltb (nadd (1 / 2) n1) z) with (Rlt_bool (1 / 2 + 1) z). rewrite Rlt_bool_true, Rlt_bool_false by lra.
    rewrite log_gamma_half. cbn [rbind]. rewrite E. cbn [rbind ret]. unfold ret. cbn [rbind]. reflexivity.
  - assert (EX : exp (1 / 2 * (ln z + 1) - z - ln PI / 2) = exp (1 / 2) * (y * dens y)). { replace (1 / 2 * (ln z + 1) - z - ln PI / 2) with (1 / 2 + (1 / 2 * ln z - z - ln PI / 2)) by lra. rewrite exp_plus. f_equal. now apply root_half. } rewrite EX. pose proof (exp_pos (1 / 2)) as Pe. pose proof (dens_pos y) as Pd. pose proof (ps_ge (1 / 2) z ltac:(lra) ltac:(lra) K) as PS. pose proof (pc_pos (1 / 2) z ltac:(lra) ltac:(lra) K) as PC.
    pose proof (mass_series K y Hy ltac:(unfold z in *; lra) HK) as M. cbv zeta in M. fold z in M. destruct M as (M1 & M2). assert (Py : 0 < y * dens y) by nra. apply le_INR in HK. change (INR 1) with 1 in HK.
    assert (R1 : pc (1 / 2) z K * ((1 / 2 + 1) / INR K) <= 3 / 2 * u * ps (1 / 2) z K). { assert ((1 / 2 + 1) / INR K <= 3 / 2). { apply Rmult_le_reg_r with (INR K); [lra|]. unfold Rdiv at 1. rewrite Rmult_assoc, Rinv_l by lra. lra. } assert (0 < (1 / 2 + 1) / INR K) by (apply Rdiv_lt_0_compat; lra). nra. }
    replace (ps (1 / 2) z K * (exp (1 / 2) * (y * dens y))) with (exp (1 / 2) * (y * dens y * ps (1 / 2) z K)) by ring. split; [split|].
    + apply Rmult_lt_0_compat; auto. apply Rmult_lt_0_compat; lra.
    + apply Rmult_le_compat_l; lra.
    + replace (exp (1 / 2) * (y * dens y * ps (1 / 2) z K) * (1 + 3 / 2 * u)) with (exp (1 / 2) * (y * dens y * (ps (1 / 2) z K * (1 + 3 / 2 * u)))) by ring. apply Rmult_le_compat_l; [lra|]. eapply Rle_trans; [exact M2|]. apply Rmult_le_compat_l; lra.
Qed.
Lemma small_loss : 0 < u <= 1 / 100 -> 0 < u * (ln (/ u) + 2) <= 1 / 4.
Proof.
  intros Hu. assert (L : 0 < ln (/ u)). { rewrite <- ln_1. apply ln_increasing; [lra|]. rewrite <- Rinv_1. apply Rinv_lt_contravar; lra. } split; [nra|].
  set (s := sqrt u). assert (Ps : 0 < s) by (apply sqrt_lt_R0; lra). assert (SS : s * s = u) by (apply sqrt_sqrt; lra). assert (S1 : s <= 1 / 10) by (apply Rsqr_incr_0_var; [unfold Rsqr; lra|lra]).
  assert (E : ln (/ u) = 2 * ln (/ s)) by (rewrite <- SS, !ln_Rinv, ln_mult by nra; ring). assert (Q : ln (/ s) <= / s - 1). { pose proof (exp_ineq1_le (ln (/ s))) as X. rewrite exp_ln in X by (now apply Rinv_0_lt_compat). lra. }
  assert (u * ln (/ u) <= 2 * s). { rewrite E, <- SS. replace (2 * s) with (s * s * (2 * / s)) by (field; lra). apply Rmult_le_compat_l; nra. } nra.
Qed.

Section At.
Variables mean stddev val : R.
Hypothesis Hs : 0 < stddev.
Let x := (val - mean) / stddev.
Lemma val_at : val = mean + stddev * x.
Proof. unfold x. field. lra. Qed.
(** beyond the square root of three standard deviations *)
Lemma conditional_far tail fuel : 0 < u <= 1 / 100 -> normal_tail mean stddev tail -> sqrt 3 * stddev <= Rabs (val - mean) -> ln (/ u) * ln (/ u) < INR fuel ->
  exists h, gaussian_conditional fuel mean stddev val = Some (Ret h) /\
    Rabs (h - normal_density mean stddev val / tail val) <= 2 * (u * (ln (/ u) + 2)) * (normal_density mean stddev val / tail val).
Proof.
  intros Hu T Hv Hf. pose proof (small_loss Hu) as Hd. set (d := u * (ln (/ u) + 2)) in *.
  assert (S3 : 1 < sqrt 3) by (rewrite <- sqrt_1; apply sqrt_lt_1; lra). assert (S33 : sqrt 3 * sqrt 3 = 3) by (apply sqrt_sqrt; lra).
  assert (Dv : val - mean = stddev * x) by (rewrite val_at at 1; ring). set (y := Rabs x). assert (Hy : sqrt 3 <= y). { rewrite Dv, Rabs_mult, (Rabs_pos_eq stddev) in Hv by lra. fold y in Hv. nra. }
  assert (Ey : x * x / 2 = y * y / 2) by (unfold y; rewrite <- Rabs_mult, Rabs_pos_eq by nra; reflexivity). assert (Hz : 3 / 2 <= y * y / 2) by nra.
  assert (Et : tail val = ntail x) by (rewrite val_at; now apply normal_shift). rewrite Et, normal_at by auto. fold x.
  destruct (igamc_far y fuel ltac:(lra) ltac:(lra) Hz Hf) as (c & E1 & E2 & Bc & Dc). fold d in Dc.
  pose proof (kap_pos y ltac:(lra)) as Pk. assert (EF : ntail y = Fr y * kap y). { unfold Fr. change (Wn y 0) with (mom 0 y / 1). cbn [mom]. field. lra. } pose proof (ntail_bounds y ltac:(lra)) as (Nt & Nb).
  unfold gaussian_conditional. change (neqb stddev n0) with (Req_bool stddev 0). rewrite Req_bool_false by lra. cbn [negb oassert rbind].
  change (ndiv (nsub val mean) stddev) with ((val - mean) / stddev). fold x. change (ndiv (nmul x x) n2) with (x * x / 2). rewrite Ey.
  change (nltb x (nadd nsqrt3 (nmul (nofZ 10) tulp))) with (Rlt_bool x (sqrt 3 + 10 * u)). change nhalf with (1 / 2).
  assert (Pd := dens_pos y). assert (Edy : dens x = dens y). { unfold y, Rabs. destruct (Rcase_abs x); auto. now rewrite dens_mirror. }
  destruct (Rlt_bool_spec x (sqrt 3 + 10 * u)) as [L|L].
  - rewrite E1. cbn [rbind]. rewrite (gaussian_value eps u) by lra. unfold ret. cbn [rbind]. rewrite normal_at by auto. fold x. change (nltb n0 x) with (Rlt_bool 0 x). destruct (Rlt_bool_spec 0 x) as [P|P].
    + assert (Exy : y = x) by (unfold y; apply Rabs_pos_eq; lra). rewrite <- Exy in *. exists (dens y / stddev / (c * (y * dens y) / 2)). split; [reflexivity|].
      replace (c * (y * dens y) / 2) with (c * kap y) by (unfold kap; field). rewrite EF. set (t := dens y / stddev). assert (Pt : 0 < t) by (apply Rdiv_lt_0_compat; auto).
      assert (PF : 0 < Fr y) by lra. assert (Eh : t / (c * kap y) - t / (Fr y * kap y) = t / (Fr y * kap y) * ((Fr y - c) / c)) by (field; repeat split; lra). rewrite Eh. assert (Q : 0 < t / (Fr y * kap y)) by (apply Rdiv_lt_0_compat; auto; apply Rmult_lt_0_compat; auto).
      assert (R0 : 0 <= (Fr y - c) / c <= 2 * d). { split; [apply Rmult_le_pos; [lra|left; apply Rinv_0_lt_compat; lra]|]. apply Rmult_le_reg_r with c; [lra|]. unfold Rdiv. rewrite Rmult_assoc, Rinv_l, Rmult_1_r by lra. nra. }
      rewrite Rabs_pos_eq by (apply Rmult_le_pos; lra). rewrite (Rmult_comm (2 * d)). apply Rmult_le_compat_l; lra.
    + assert (Exy : x = - y) by (unfold y; rewrite Rabs_left1 by lra; ring). exists (dens x / stddev / (1 - c * (y * dens y) / 2)). split; [reflexivity|].
      replace (c * (y * dens y) / 2) with (c * kap y) by (unfold kap; field). rewrite Exy, ntail_mirror, EF, dens_mirror. set (t := dens y / stddev). assert (Pt : 0 < t) by (apply Rdiv_lt_0_compat; auto).
      assert (B1 : bell y <= 1) by (unfold bell; rewrite <- exp_0; apply exp_mono; pose proof (pow2_ge_0 y); lra). assert (TF : Fr y * kap y <= 1 / 2) by lra. assert (TC : c * kap y <= Fr y * kap y) by nra. assert (TD : Fr y * kap y - c * kap y <= d / 2) by nra.
      set (a := c * kap y) in *. set (b := Fr y * kap y) in *. assert (A0 : 0 < a) by (unfold a; nra). assert (Eh : t / (1 - a) - t / (1 - b) = - (t / (1 - b) * ((b - a) / (1 - a)))) by (field; split; lra). rewrite Eh, Rabs_Ropp. assert (Q : 0 < t / (1 - b)) by (apply Rdiv_lt_0_compat; lra).
      assert (R0 : 0 <= (b - a) / (1 - a) <= 2 * d). { split; [apply Rmult_le_pos; [lra|left; apply Rinv_0_lt_compat; lra]|]. apply Rmult_le_reg_r with (1 - a); [lra|]. unfold Rdiv. rewrite Rmult_assoc, Rinv_l, Rmult_1_r by lra. nra. }
      rewrite Rabs_pos_eq by (apply Rmult_le_pos; lra). rewrite (Rmult_comm (2 * d)). apply Rmult_le_compat_l; lra.
  - rewrite E2. cbn [rbind]. assert (Exy : y = x) by (unfold y; apply Rabs_pos_eq; lra). rewrite <- Exy in *. exists (2 / (Rabs (val - mean) * c)). split; [reflexivity|]. rewrite Dv. rewrite (Rabs_pos_eq (stddev * y)) by (apply Rmult_le_pos; lra). rewrite EF.
    assert (PF : 0 < Fr y) by lra. assert (Et' : dens y / stddev / (Fr y * kap y) = 2 / (stddev * y * Fr y)) by (unfold kap; field; repeat split; lra). rewrite Et'. set (t := 2 / (stddev * y * Fr y)). assert (Py : 0 < y) by lra. assert (Psy : 0 < stddev * y) by nra. assert (Pt : 0 < t) by (apply Rdiv_lt_0_compat; [lra|]; nra).
    assert (Eh : 2 / (stddev * y * c) - t = t * ((Fr y - c) / c)) by (unfold t; field; repeat split; lra). rewrite Eh.
    assert (R0 : 0 <= (Fr y - c) / c <= 2 * d). { split; [apply Rmult_le_pos; [lra|left; apply Rinv_0_lt_compat; lra]|]. apply Rmult_le_reg_r with c; [lra|]. unfold Rdiv. rewrite Rmult_assoc, Rinv_l, Rmult_1_r by lra. nra. }
    rewrite Rabs_pos_eq by (apply Rmult_le_pos; lra). rewrite (Rmult_comm (2 * d)). apply Rmult_le_compat_l; lra.
Qed.
(** nearer the mean *)
Lemma conditional_near tail : 0 < u < 1 -> normal_tail mean stddev tail -> Rabs (val - mean) < sqrt 3 * stddev -> let e := exp (1 / 2) in
  exists N, forall fuel, (N <= fuel)%nat -> exists h, gaussian_conditional fuel mean stddev val = Some (Ret h) /\ 0 < h /\
    let wrong := 1 / 2 - e / 2 * (1 / 2 - tail val) in
    0 < wrong /\ Rabs (h - normal_density mean stddev val / wrong) <= 10 * u * (normal_density mean stddev val / wrong) /\
    (mean < val -> h * tail val < normal_density mean stddev val) /\ (val < mean -> normal_density mean stddev val < h * tail val).
Proof.
  intros Hu T Hv e. assert (S3 : 1 < sqrt 3) by (rewrite <- sqrt_1; apply sqrt_lt_1; lra). assert (S33 : sqrt 3 * sqrt 3 = 3) by (apply sqrt_sqrt; lra).
  assert (Dv : val - mean = stddev * x) by (rewrite val_at at 1; ring). set (y := Rabs x). assert (Hy : y < sqrt 3). { rewrite Dv, Rabs_mult, (Rabs_pos_eq stddev) in Hv by lra. fold y in Hv. nra. } assert (Y0 : 0 <= y) by apply Rabs_pos.
  assert (Ey : x * x / 2 = y * y / 2) by (unfold y; rewrite <- Rabs_mult, Rabs_pos_eq by nra; reflexivity). assert (Hz : y * y / 2 < 3 / 2) by nra.
  assert (Et : tail val = ntail x) by (rewrite val_at; now apply normal_shift). rewrite Et, normal_at by auto. fold x.
  assert (Pd := dens_pos x). set (t := dens x / stddev). assert (Pt : 0 < t) by (apply Rdiv_lt_0_compat; auto).
  pose proof exp_half as Eh1. assert (Eh0 : 3 / 2 <= exp (1 / 2)) by (pose proof (exp_ineq1_le (1 / 2)); lra). fold e in Eh0, Eh1.
  destruct (Req_dec x 0) as [Z|Z].
  { assert (Em : val = mean) by (rewrite val_at, Z; ring). exists 0%nat. intros fuel _. exists (normal_density mean stddev mean / (1 / 2)). rewrite Em at 1. split; [apply gaussian_conditional_mean; lra|]. rewrite normal_at by auto. replace ((mean - mean) / stddev) with x by (rewrite Z; field; lra). fold t.
    assert (Nx : ntail x = 1 / 2) by (rewrite Z; unfold ntail, half_bell; rewrite RInt_point; change zero with 0; unfold Rdiv; ring). rewrite Nx. cbv zeta. replace (1 / 2 - e / 2 * (1 / 2 - 1 / 2)) with (1 / 2) by field. split; [apply Rdiv_lt_0_compat; lra|]. split; [lra|]. split; [|split; lra].
    rewrite Rminus_eq_0, Rabs_R0. apply Rmult_le_pos; [lra|]. left. apply Rdiv_lt_0_compat; lra. }
  assert (Py : 0 < y) by (apply Rabs_pos_lt; auto). pose proof (ntail_bounds y Y0) as (Nt & Nb).
  assert (Nm : ntail y < 1 / 2). { pose proof (left_out_bounds 0 y Py) as (L & _). unfold left_out in L. cbn [tsum] in L. assert (0 < tk 0 y) by (unfold tk; cbn; nra). pose proof (dens_pos y). assert (0 < dens y * tk 0 y) by nra. lra. }
  destruct (igamc_near y Hu Py Hz) as (N & HN). exists N. intros fuel Hf. destruct (HN fuel Hf) as (p & E & Bp & Cp). fold e in Bp, Cp. set (M := 1 / 2 - ntail y) in *. assert (HM : 0 < M < 1 / 2) by (unfold M; lra).
  assert (HeM : e * M < 845 / 1000) by nra. assert (Dp : e * M - p <= 3 / 2 * u * (845 / 1000)) by nra.
  unfold gaussian_conditional. change (neqb stddev n0) with (Req_bool stddev 0). rewrite Req_bool_false by lra. cbn [negb oassert rbind].
  change (ndiv (nsub val mean) stddev) with ((val - mean) / stddev). fold x. change (ndiv (nmul x x) n2) with (x * x / 2). rewrite Ey.
  change (nltb x (nadd nsqrt3 (nmul (nofZ 10) tulp))) with (Rlt_bool x (sqrt 3 + 10 * u)). change nhalf with (1 / 2). assert (x <= y) by apply Rle_abs. rewrite Rlt_bool_true by lra.
  rewrite E. cbn [rbind]. rewrite (gaussian_value eps u) by lra. unfold ret. cbn [rbind]. rewrite normal_at by auto. fold x t. change (nltb n0 x) with (Rlt_bool 0 x). destruct (Rlt_bool_spec 0 x) as [P|P].
  - assert (Exy : y = x) by (unfold y; apply Rabs_pos_eq; lra). rewrite <- Exy in *. exists (t / ((1 - p) / 2)). split; [reflexivity|]. cbv zeta. fold M. set (w := 1 / 2 - e / 2 * M). assert (Pw : 77 / 1000 <= w) by (unfold w; lra). set (n := (1 - p) / 2). assert (Nw : w <= n <= w + 3 / 4 * u * (845 / 1000)) by (unfold w, n; lra).
    split; [apply Rdiv_lt_0_compat; lra|]. split; [lra|]. split; [|split].
    + assert (Q : 0 < t / w) by (apply Rdiv_lt_0_compat; lra). assert (Eh : t / n - t / w = - (t / w * ((n - w) / n))) by (field; lra). rewrite Eh, Rabs_Ropp. assert (R0 : 0 <= (n - w) / n <= 10 * u). { split; [apply Rmult_le_pos; [lra|left; apply Rinv_0_lt_compat; lra]|]. apply Rmult_le_reg_r with n; [lra|]. unfold Rdiv. rewrite Rmult_assoc, Rinv_l, Rmult_1_r by lra. nra. }
      rewrite Rabs_pos_eq by (apply Rmult_le_pos; lra). rewrite (Rmult_comm (10 * u)). apply Rmult_le_compat_l; lra.
    + intros _. apply Rmult_lt_reg_r with n; [lra|]. replace (t / n * ntail y * n) with (t * ntail y) by (field; lra). apply Rmult_lt_compat_l; auto. assert (ntail y < w); [|lra]. unfold w, M in *. nra.
    + intros L. exfalso. assert (val - mean < 0) by lra. rewrite Dv in *. nra.
  - assert (Exy : x = - y) by (unfold y; rewrite Rabs_left1 by lra; ring). exists (t / (1 - (1 - p) / 2)). split; [reflexivity|]. cbv zeta. rewrite Exy, ntail_mirror. replace (1 / 2 - (1 - ntail y)) with (- M) by (unfold M; lra). set (w := 1 / 2 - e / 2 * - M). set (n := 1 - (1 - p) / 2). assert (Pn : 1 / 2 <= n) by (unfold n; lra). assert (Nw : n <= w <= n + 3 / 4 * u * (845 / 1000)) by (unfold w, n; lra).
    split; [apply Rdiv_lt_0_compat; lra|]. split; [lra|]. split; [|split].
    + assert (Q : 0 < t / w) by (apply Rdiv_lt_0_compat; lra). assert (Eh : t / n - t / w = t / w * ((w - n) / n)) by (field; lra). rewrite Eh. assert (R0 : 0 <= (w - n) / n <= 10 * u). { split; [apply Rmult_le_pos; [lra|left; apply Rinv_0_lt_compat; lra]|]. apply Rmult_le_reg_r with n; [lra|]. unfold Rdiv. rewrite Rmult_assoc, Rinv_l, Rmult_1_r by lra. nra. }
      rewrite Rabs_pos_eq by (apply Rmult_le_pos; lra). rewrite (Rmult_comm (10 * u)). apply Rmult_le_compat_l; lra.
    + intros L. exfalso. assert (0 < val - mean) by lra. rewrite Dv in *. nra.
    + intros _. apply Rmult_lt_reg_r with n; [lra|]. replace (t / n * (1 - ntail y) * n) with (t * (1 - ntail y)) by (field; lra). apply Rmult_lt_compat_l; auto. unfold n, M in *. nra.
Qed.
End At.
End Prob.
