(** Poisson in doubles from the cutoff on: proofs. *)
From Coq Require Import ZArith Reals Bool SpecFloat Lia Lra.
From Flocq Require Import Core IEEE754.BinarySingleNaN.
From Verif Require Import Base Scalar OrdLib RLib B64Lib B64Ops FloatOps ConstSpec RoundLib RoundProofs RSpec RoundProofs2 SegDouble BallDouble MiniballModel LitModel LitProofs.
From Verif Require Import ProbModel ProbDoubleModel ProbDoubleSpec ProbSpec RoundSpec ProbProofs3 GaussDouble PoissonDouble SeriesDouble SeriesDouble2 LogGammaDouble.
Open Scope R_scope.

(** n log(mean) - (mean + f), with a logarithm off by some roundings and an f off by D. *)
Lemma log_close_big n L lnm f lf mu D : 0 <= n <= bpow radix2 34 -> 0 <= mu -> 10 <= f -> 0 <= D <= 1 / 1000 -> n * Rabs lnm + mu + f <= 1000000000000 ->
  Rabs (L - lnm) <= 2 * u64 * Rabs lnm + eta64 -> Rabs (lf - f) <= D -> let S := n * Rabs lnm + mu + f in
  Rabs (n * L) <= bpow radix2 41 /\ Rabs (mu + lf) <= bpow radix2 41 /\ Rabs (rnd (n * L) - rnd (mu + lf)) <= bpow radix2 41 /\ 1 <= rnd (mu + lf) /\
  Rabs (rnd (rnd (n * L) - rnd (mu + lf)) - (n * lnm - (mu + f))) <= 4.2 * (u64 * S) + 1.01 * D.
Proof.
  intros Hn Hm Hf HD HS HL Hlf S. pose proof u64_pos as [U0 _]. pose proof u_tiny16 as U. pose proof eta64_pos as E0. pose proof eta_u as E1. assert (B41 : bpow radix2 41 = 2199023255552) by reflexivity. rewrite B41. pose proof (count_small n Hn) as [_ N1].
  pose proof (Rabs_pos lnm) as PL. set (F := n * Rabs lnm) in *. set (G := mu + f) in *. assert (F0 : 0 <= F) by (apply Rmult_le_pos; lra). assert (G0 : 10 <= G) by (unfold G; lra). assert (ES : S = F + G) by (unfold S, G; ring). assert (FG : F + G <= 1000000000000) by (unfold G; lra).
  assert (UF : 0 <= u64 * F) by (apply Rmult_le_pos; lra). assert (UF' : u64 * F <= 1 / 5000000000000000 * 1000000000000) by (apply Rmult_le_compat; lra). assert (UG : u64 * 10 <= u64 * G) by (apply Rmult_le_compat_l; lra). assert (UG' : u64 * G <= 1 / 5000000000000000 * 1000000000000) by (apply Rmult_le_compat; lra). assert (UD : u64 * D <= 0.001 * D) by (apply Rmult_le_compat_r; lra).
  assert (UUF : u64 * (u64 * F) <= 0.001 * (u64 * F)) by (apply Rmult_le_compat_r; lra). assert (UUG : u64 * (u64 * G) <= 0.001 * (u64 * G)) by (apply Rmult_le_compat_r; lra). assert (UU : u64 * u64 <= 0.001 * u64) by (apply Rmult_le_compat_r; lra).
  assert (A1 : Rabs (n * L - n * lnm) <= 2 * (u64 * F) + u64 / 1000). { replace (n * L - n * lnm) with (n * (L - lnm)) by ring. rewrite Rabs_mult, (Rabs_pos_eq n) by lra. apply Rle_trans with (n * (2 * u64 * Rabs lnm + eta64)); [apply Rmult_le_compat_l; lra|]. unfold F. lra. }
  assert (AP : Rabs (n * lnm) = F) by (unfold F; rewrite Rabs_mult, (Rabs_pos_eq n) by lra; reflexivity). set (p := n * L) in *. set (P := n * lnm) in *.
  assert (A2 : Rabs p <= F + (2 * (u64 * F) + u64 / 1000)) by (replace p with (P + (p - P)) by ring; eapply Rle_trans; [apply Rabs_triang|lra]).
  pose proof (rnd_err p) as A3. assert (A4 : u64 * Rabs p <= u64 * (F + (2 * (u64 * F) + u64 / 1000))) by (apply Rmult_le_compat_l; lra).
  assert (A5 : Rabs (rnd p - P) <= 3.01 * (u64 * F) + u64 / 100) by (replace (rnd p - P) with ((rnd p - p) + (p - P)) by ring; eapply Rle_trans; [apply Rabs_triang|lra]).
  set (s := mu + lf) in *. assert (B1 : Rabs (s - G) <= D) by (replace (s - G) with (lf - f) by (unfold s, G; ring); exact Hlf). apply Rabs_le_inv in B1 as B1'. assert (B2 : Rabs s <= G + D) by (apply Rabs_le; lra).
  pose proof (rnd_err s) as B3. assert (B4 : u64 * Rabs s <= u64 * (G + D)) by (apply Rmult_le_compat_l; lra). assert (B5 : Rabs (rnd s - G) <= 1.001 * D + 1.01 * (u64 * G)) by (replace (rnd s - G) with ((rnd s - s) + (s - G)) by ring; eapply Rle_trans; [apply Rabs_triang|lra]).
  apply Rabs_le_inv in B5 as B5'.
  assert (D1 : Rabs (rnd p - rnd s) <= F + G + D + 1). { replace (rnd p - rnd s) with ((rnd p - P) + (P - rnd s)) by ring. eapply Rle_trans; [apply Rabs_triang|]. replace (P - rnd s) with (P + - rnd s) by ring. pose proof (Rabs_triang P (- rnd s)) as T. rewrite Rabs_Ropp in T. assert (Rabs (rnd s) <= G + (1.001 * D + 1.01 * (u64 * G))) by (apply Rabs_le; lra). lra. }
  split; [lra|]. split; [lra|]. split; [lra|]. split; [lra|].
  assert (D1' : Rabs (rnd p - rnd s) <= 1.01 * (F + G)). { replace (rnd p - rnd s) with ((rnd p - P) + (P - rnd s)) by ring. eapply Rle_trans; [apply Rabs_triang|]. replace (P - rnd s) with (P + - rnd s) by ring. pose proof (Rabs_triang P (- rnd s)) as T. rewrite Rabs_Ropp in T. assert (Rabs (rnd s) <= G + (1.001 * D + 1.01 * (u64 * G))) by (apply Rabs_le; lra). lra. }
  pose proof (rnd_err (rnd p - rnd s)) as D2. assert (D3 : u64 * Rabs (rnd p - rnd s) <= u64 * (1.01 * (F + G))) by (apply Rmult_le_compat_l; lra).
  fold G. replace (rnd (rnd p - rnd s) - (P - G)) with ((rnd (rnd p - rnd s) - (rnd p - rnd s)) + ((rnd p - P) + - (rnd s - G))) by ring. eapply Rle_trans; [apply Rabs_triang|].
  pose proof (Rabs_triang (rnd p - P) (- (rnd s - G))) as D4. rewrite Rabs_Ropp in D4. rewrite ES. lra.
Qed.
Lemma ln_wide x : bpow radix2 (-32) <= x <= bpow radix2 32 -> Rabs (ln x) <= 23.
Proof.
  intros [L H]. pose proof ln2_small as [A B]. pose proof (bpow_gt_0 radix2 (-32)) as P. apply Rabs_le. split.
  - apply Rle_trans with (ln (bpow radix2 (-32))); [rewrite ln_bpow; lra|]. destruct L as [L|<-]; [left; apply ln_increasing; lra|right; reflexivity].
  - apply Rle_trans with (ln (bpow radix2 32)); [|rewrite ln_bpow; lra]. destruct H as [H| ->]; [left; apply ln_increasing; lra|right; reflexivity].
Qed.
Theorem poisson_close_big m (e l : spec_float -> spec_float) mu n :
  (forall h, finite_double h -> -700 <= real h <= 0 -> exp_accurate_at e h) ->
  (forall x, finite_double x -> bpow radix2 (-32) <= real x <= bpow radix2 32 -> log_accurate_at l x) ->
  fl mu -> bpow radix2 (-32) <= val mu <= bpow radix2 32 -> (10 <= n < 2 ^ 32 - 1)%Z ->
  let k := Z.to_nat n in let N := IZR n + 1 in let S := INR k * Rabs (ln (val mu)) + val mu + ln (INR (fact k)) in
  exp (-699) <= poisson_pmf (val mu) k ->
  exists r, poisson (H := B64 m) (H0 := Btrans e l) mu n = Some (Ret r) /\ fl r /\
    Rabs (val r - poisson_pmf (val mu) k) <= ((5 * S + 33 * (N * ln N) + 3) * u64 + 1 / 29000 / N ^ 7) * poisson_pmf (val mu) k.
Proof.
  intros He Hl Fm Bm Hn k N S Hp. pose proof u64_pos as [U0 _]. pose proof u_tiny16 as U.
  pose proof (bpow_gt_0 radix2 (-32)) as P32. assert (M0 : 0 < val mu) by lra. destruct (ofZ_whole 0 ltac:(lia)) as [F0 V0]. destruct (ofZ_whole n ltac:(lia)) as [Fn Vn].
  assert (C1 : SFleb (b64_ofZ 0) mu = true) by (rewrite leb_ok, V0 by auto; apply Rle_bool_true; lra). assert (C2 : SFeqb mu (b64_ofZ 0) = false) by (rewrite eqb_ok, V0 by auto; apply Req_bool_false; lra).
  assert (C3 : SFltb (b64_ofZ 0) mu = true) by (rewrite ltb_ok, V0 by auto; apply Rlt_bool_true; lra).
  assert (B1 : bpow radix2 (-32) <= 1) by (apply (bpow_le radix2 (-32) 0); lia). assert (B32 : bpow radix2 32 = 4294967296) by reflexivity.
  destruct (log_factorial_double m e l n ltac:(intros x Fx Bx; apply Hl; [exact Fx|lra]) Hn) as (lf & El & Flf & Blf). fold N k in Blf.
  assert (HN : 11 <= N <= bpow radix2 32). { unfold N. rewrite <- plus_IZR. change (bpow radix2 32) with (IZR (2 ^ 32)). split; apply IZR_le; lia. } pose proof (ln_bounds N HN) as HL.
  assert (M1 : 0 <= N * ln N <= 4294967296 * 23) by (split; [apply Rmult_le_pos; lra|apply Rmult_le_compat; lra]). assert (UM : u64 * (N * ln N) <= 1 / 5000000000000000 * (4294967296 * 23)) by (apply Rmult_le_compat; lra). assert (UM0 : 0 <= u64 * (N * ln N)) by (apply Rmult_le_pos; lra).
  assert (P7 : 0 < / N ^ 7 <= / 11 ^ 7) by (split; [apply Rinv_0_lt_compat, pow_lt; lra|apply Rinv_le_contravar; [apply pow_lt; lra|apply pow_incr; lra]]).
  set (D := 32 * u64 * (N * ln N) + 1 / 30000 / N ^ 7) in *. assert (HD : 0 <= D <= 8 / 10000) by (unfold D, Rdiv in *; lra).
  pose proof (ln_fact_big k ltac:(unfold k; lia)) as F13. assert (Ek : INR k = IZR n) by (unfold k; rewrite INR_IZR_INZ, Z2Nat.id by lia; reflexivity). assert (KB : 10 <= INR k <= 4294967296) by (rewrite Ek; split; apply IZR_le; lia).
  pose proof (ln_wide (val mu) Bm) as L23. pose proof (Rabs_pos (ln (val mu))) as L0. assert (KL : 0 <= INR k * Rabs (ln (val mu)) <= 4294967296 * 23) by (split; [apply Rmult_le_pos; lra|apply Rmult_le_compat; lra]).
  assert (FU : ln (INR (fact k)) <= 4294967296 * 24). { assert (X : forall j, ln (INR (fact j)) <= INR j * ln (INR j + 1)). { induction j as [|j IH]; [cbn [fact INR]; rewrite ln_1; lra|]. rewrite fact_simpl, mult_INR, ln_mult by (try apply INR_fact_lt_0; apply lt_0_INR; lia). rewrite S_INR in *. pose proof (pos_INR j) as J0.
      assert (Q1 : ln (INR j + 1) <= ln (INR j + 1 + 1)) by (apply ProbProofs.ln_mono; lra). assert (Q2 : INR j * ln (INR j + 1) <= INR j * ln (INR j + 1 + 1)) by (apply Rmult_le_compat_l; lra). lra. }
    specialize (X k). rewrite Ek in X at 1 2. fold N in X. eapply Rle_trans; [exact X|]. assert (IZR n * ln N <= N * ln N) by (apply Rmult_le_compat_r; [lra|unfold N; lra]). lra. }
  assert (HS : S <= 1000000000000) by (unfold S; lra). assert (S0 : 10 <= S) by (unfold S; lra).
  destruct (Hl mu (proj1 (fl_iff _) Fm) Bm) as [FL BL]. apply fl_iff in FL. change (real (l mu)) with (val (l mu)) in BL. change (real mu) with (val mu) in BL. change half_ulp with u64 in BL. change half_tiny with eta64 in BL.
  assert (K34 : bpow radix2 32 <= bpow radix2 34) by (apply bpow_le; lia).
  destruct (log_close_big (INR k) (val (l mu)) (ln (val mu)) (ln (INR (fact k))) (val lf) (val mu) D ltac:(lra) ltac:(lra) ltac:(lra) ltac:(lra) HS BL Blf) as (G1 & G2 & G3 & G4 & G5). cbv zeta in G5. fold S in G5.
  unfold poisson. change (nleb (Num := B64 m) (n0 (H := B64 m)) mu) with (SFleb (b64_ofZ 0) mu). rewrite C1. cbn [oassert rbind]. change (neqb (Num := B64 m) mu (n0 (H := B64 m))) with (SFeqb mu (b64_ofZ 0)). rewrite C2.
  unfold log_poisson. change (nltb (Num := B64 m) (n0 (H := B64 m)) mu) with (SFltb (b64_ofZ 0) mu). rewrite C3. cbn [oassert rbind]. destruct (Z.eqb_spec n 0) as [X|_]; [lia|]. rewrite El. cbn [rbind].
  assert (B41 : bpow radix2 41 <= big) by (apply bpow_le; lia). rewrite <- Ek in Vn.
  destruct (mul_ok (b64_ofZ n) (l mu) Fn FL ltac:(rewrite Vn; lra)) as [F1 V1]. rewrite Vn in V1. destruct (add_ok mu lf Fm Flf ltac:(lra)) as [F2 V2].
  change (nmul (Num := B64 m) (nofZ (Num := B64 m) n) (tlog (Trans := Btrans e l) mu)) with (SFmul prec64 emax64 (b64_ofZ n) (l mu)). change (nadd (Num := B64 m) mu lf) with (SFadd prec64 emax64 mu lf).
  set (first := SFmul prec64 emax64 (b64_ofZ n) (l mu)) in *. set (second := SFadd prec64 emax64 mu lf) in *. rewrite <- V1, <- V2 in G3, G5. rewrite <- V2 in G4.
  destruct (sub_ok first second F1 F2 ltac:(lra)) as [F3 V3]. set (ans := SFsub prec64 emax64 first second) in *. rewrite <- V3 in G5.
  assert (Hk1 : (1 <= k)%nat) by (unfold k; lia). pose proof (poisson_peak (val mu) k M0 Hk1) as Pk.
  rewrite pmf_exp in Hp |- * by exact M0. set (a := INR k * ln (val mu) - (val mu + ln (INR (fact k)))) in *. assert (A1 : a <= -1) by (unfold a; lra). assert (A2 : -699 <= a) by (apply Rnot_lt_le; intros X; apply exp_increasing in X; lra).
  assert (US : 0 <= u64 * S <= 1 / 5000000000000000 * 1000000000000) by (split; [apply Rmult_le_pos; lra|apply Rmult_le_compat; lra]). assert (US2 : u64 * S <= 0.00005).
  { apply Rle_trans with (1 / 5000000000000000 * (4294967296 * 48)); [apply Rmult_le_compat; try lra; unfold S; lra|lra]. }
  assert (DF : D <= 0.0007). { unfold D, Rdiv in *. lra. }
  apply Rabs_le_inv in G5 as G5'. assert (AB : -700 <= val ans < 0) by lra.
  assert (C4 : SFltb (b64_ofZ 0) second = true) by (rewrite ltb_ok, V0 by auto; apply Rlt_bool_true; lra). assert (C5 : SFltb ans (b64_ofZ 0) = true) by (rewrite ltb_ok, V0 by auto; apply Rlt_bool_true; lra).
  change (nltb (Num := B64 m) (n0 (H := B64 m)) second) with (SFltb (b64_ofZ 0) second). rewrite C4. cbn [oassert]. change (nsub (Num := B64 m) first second) with ans. change (nltb (Num := B64 m) ans (n0 (H := B64 m))) with (SFltb ans (b64_ofZ 0)). rewrite C5. cbn [oassert rbind].
  destruct (He ans (proj1 (fl_iff _) F3) ltac:(change (real ans) with (val ans); lra)) as [Fe Be]. exists (e ans). split; [reflexivity|]. split; [now apply fl_iff|]. change (real (e ans)) with (val (e ans)) in Be. change (real ans) with (val ans) in Be. change half_ulp with u64 in Be.
  assert (HW : 4.2 * (u64 * S) + 1.01 * D <= 1 / 1000) by lra. eapply Rle_trans; [apply (exp_shift a (val ans) (val (e ans)) _ G5 HW Be)|]. apply Rmult_le_compat_r; [left; apply exp_pos|]. replace ((5 * S + 33 * (N * ln N) + 3) * u64) with (5 * (u64 * S) + 33 * (u64 * (N * ln N)) + 3 * u64) by ring. unfold D, Rdiv in *. lra.
Qed.
