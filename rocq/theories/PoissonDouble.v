(** Poisson in doubles, below the cutoff: proofs. *)
From Coq Require Import ZArith Reals Bool SpecFloat Lia Lra Psatz.
From Flocq Require Import Core IEEE754.BinarySingleNaN.
From Verif Require Import Base Scalar OrdLib RLib B64Lib B64Ops ConstSpec RoundLib RoundProofs RSpec RoundProofs2 BallDouble SegDouble SegPointDouble LitModel LitProofs MiniballModel ProbProofs3 PropProb GaussDouble.
From Verif Require Import ProbModel ProbSpec ProbDoubleModel RoundSpec ProbDoubleSpec.
Open Scope R_scope.

Lemma exp_shift a h E W : Rabs (h - a) <= W -> W <= 1 / 1000 -> Rabs (E - exp h) <= 2 * u64 * exp h -> Rabs (E - exp a) <= (2.02 * u64 + 1.01 * W) * exp a.
Proof.
  intros H HW HE. pose proof u64_pos as [U0 _]. set (w := h - a) in *. assert (Eh : exp h = exp a * exp w) by (rewrite <- exp_plus; f_equal; unfold w; ring). rewrite Eh in HE. pose proof (exp_pos a) as X0. set (X := exp a) in *.
  pose proof (exp_near w ltac:(lra)) as N. pose proof (exp_pos w) as EW0. assert (EW : exp w <= 1.01) by (apply Rabs_le_inv in N; lra).
  replace (E - X) with ((E - X * exp w) + X * (exp w - 1)) by ring. eapply Rle_trans; [apply Rabs_triang|]. rewrite (Rabs_mult X), (Rabs_pos_eq X) by lra.
  assert (A : 2 * u64 * (X * exp w) <= 2 * u64 * (X * 1.01)) by (apply Rmult_le_compat_l; [lra|]; apply Rmult_le_compat_l; lra).
  assert (B : X * Rabs (exp w - 1) <= X * (1.01 * W)) by (apply Rmult_le_compat_l; lra). lra.
Qed.
Lemma ln2_small : 0 < ln 2 <= 0.7.
Proof.
  split; [rewrite <- ln_1; apply ln_increasing; lra|]. destruct log2_within as [_ H]. eapply Rle_trans; [exact H|]. rewrite ten52. apply Rmult_le_reg_r with (IZR (10 ^ 52)); [apply IZR_lt; reflexivity|]. unfold Rdiv. rewrite Rmult_assoc, Rinv_l, Rmult_1_r by (apply not_0_IZR; discriminate).
  replace 0.7 with (7 / 10) by lra. apply Rmult_le_reg_r with 10; [lra|]. replace (7 / 10 * IZR (10 ^ 52) * 10) with (7 * IZR (10 ^ 52)) by field. rewrite <- !mult_IZR. apply IZR_le. vm_compute. discriminate.
Qed.
Lemma ln_bpow e : ln (bpow radix2 e) = IZR e * ln 2.
Proof. rewrite bpow_exp, Rmult_comm. change (IZR radix2) with 2. rewrite ln_exp. ring. Qed.
Lemma ln_range x : bpow radix2 (-20) <= x <= bpow radix2 20 -> Rabs (ln x) <= 14.
Proof.
  intros [L H]. pose proof ln2_small as [A B]. pose proof (bpow_gt_0 radix2 (-20)) as P. apply Rabs_le. split.
  - apply Rle_trans with (ln (bpow radix2 (-20))); [rewrite ln_bpow; lra|]. destruct L as [L|<-]; [left; apply ln_increasing; lra|right; reflexivity].
  - apply Rle_trans with (ln (bpow radix2 20)); [|rewrite ln_bpow; lra]. destruct H as [H| ->]; [left; apply ln_increasing; lra|right; reflexivity].
Qed.
(** n log(mean) - (mean + f), with a logarithm off by e1 and an f off by e2. *)
Lemma log_close n L lnm f lf mu : 0 <= n <= 9 -> Rabs lnm <= 14 -> 0 <= f <= 14 -> 0 <= mu <= 100 ->
  Rabs (L - lnm) <= 2 * u64 * Rabs lnm + eta64 -> Rabs (lf - f) <= 2 * u64 * f + eta64 ->
  let F := n * Rabs lnm in let G := mu + f in
  Rabs (rnd (n * L)) <= 130 /\ Rabs (rnd (mu + lf)) <= 130 /\
  Rabs (n * L) <= 130 /\ Rabs (mu + lf) <= 130 /\
  Rabs (rnd (rnd (n * L) - rnd (mu + lf)) - (n * lnm - (mu + f))) <= 4.05 * u64 * (F + G) + 50 * eta64.
Proof.
  intros Hn Hl Hf Hm HL Hlf F G. pose proof u64_pos as [U0 _]. pose proof u_tiny as U. pose proof eta64_pos as E0. pose proof eta_u as E1. assert (U' : u64 <= 1 / 1000000000000) by lra.
  pose proof (Rabs_pos lnm) as PL. assert (F0 : 0 <= F) by (apply Rmult_le_pos; lra). assert (F1 : F <= 9 * 14) by (apply Rmult_le_compat; lra). assert (G0 : 0 <= G <= 114) by (unfold G; lra).
  assert (UF : 0 <= u64 * F) by (apply Rmult_le_pos; lra). assert (UF' : u64 * F <= 1 / 1000000000000 * 126) by (apply Rmult_le_compat; lra). assert (UG : 0 <= u64 * G) by (apply Rmult_le_pos; lra). assert (UG' : u64 * G <= 1 / 1000000000000 * 114) by (apply Rmult_le_compat; lra).
  assert (UUF : u64 * (u64 * F) <= 0.001 * (u64 * F)) by (apply Rmult_le_compat_r; lra). assert (UUG : u64 * (u64 * G) <= 0.001 * (u64 * G)) by (apply Rmult_le_compat_r; lra). assert (UE : u64 * eta64 <= 0.001 * eta64) by (apply Rmult_le_compat_r; lra).
  assert (A1 : Rabs (n * L - n * lnm) <= 2 * (u64 * F) + 9 * eta64). { replace (n * L - n * lnm) with (n * (L - lnm)) by ring. rewrite Rabs_mult, (Rabs_pos_eq n) by lra. apply Rle_trans with (n * (2 * u64 * Rabs lnm + eta64)); [apply Rmult_le_compat_l; lra|]. assert (n * eta64 <= 9 * eta64) by (apply Rmult_le_compat_r; lra). unfold F. lra. }
  assert (A2 : Rabs (n * L) <= F + (2 * (u64 * F) + 9 * eta64)). { replace (n * L) with (n * lnm + (n * L - n * lnm)) by ring. eapply Rle_trans; [apply Rabs_triang|]. rewrite (Rabs_mult n lnm), (Rabs_pos_eq n) by lra. fold F. lra. }
  pose proof (rnd_err (n * L)) as A3. assert (A4 : u64 * Rabs (n * L) <= u64 * (F + (2 * (u64 * F) + 9 * eta64))) by (apply Rmult_le_compat_l; lra).
  set (p := n * L) in *. set (P := n * lnm) in *. assert (A5 : Rabs (rnd p - P) <= 3.01 * (u64 * F) + 11 * eta64). { replace (rnd p - P) with ((rnd p - p) + (p - P)) by ring. eapply Rle_trans; [apply Rabs_triang|]. lra. }
  assert (AP : Rabs P = F) by (unfold P, F; rewrite Rabs_mult, (Rabs_pos_eq n) by lra; reflexivity).
  assert (A6 : Rabs (rnd p) <= F + (3.01 * (u64 * F) + 11 * eta64)). { replace (rnd p) with (P + (rnd p - P)) by ring. eapply Rle_trans; [apply Rabs_triang|]. lra. }
  assert (UFG : u64 * f <= u64 * G) by (apply Rmult_le_compat_l; unfold G; lra).
  assert (B1 : Rabs ((mu + lf) - G) <= 2 * (u64 * G) + eta64) by (replace (mu + lf - G) with (lf - f) by (unfold G; ring); lra).
  set (s := mu + lf) in *. assert (B2 : Rabs s <= G + (2 * (u64 * G) + eta64)). { replace s with (G + (s - G)) by ring. eapply Rle_trans; [apply Rabs_triang|]. rewrite (Rabs_pos_eq G) by lra. lra. }
  pose proof (rnd_err s) as B3. assert (B4 : u64 * Rabs s <= u64 * (G + (2 * (u64 * G) + eta64))) by (apply Rmult_le_compat_l; lra).
  assert (B5 : Rabs (rnd s - G) <= 3.01 * (u64 * G) + 3 * eta64). { replace (rnd s - G) with ((rnd s - s) + (s - G)) by ring. eapply Rle_trans; [apply Rabs_triang|]. lra. }
  assert (B6 : Rabs (rnd s) <= G + (3.01 * (u64 * G) + 3 * eta64)). { replace (rnd s) with (G + (rnd s - G)) by ring. eapply Rle_trans; [apply Rabs_triang|]. rewrite (Rabs_pos_eq G) by lra. lra. }
  split; [lra|]. split; [lra|]. split; [lra|]. split; [lra|].
  assert (D1 : Rabs (rnd p - rnd s) <= (F + (3.01 * (u64 * F) + 11 * eta64)) + (G + (3.01 * (u64 * G) + 3 * eta64))). { replace (rnd p - rnd s) with (rnd p + - rnd s) by ring. eapply Rle_trans; [apply Rabs_triang|]. rewrite Rabs_Ropp. lra. }
  pose proof (rnd_err (rnd p - rnd s)) as D2. assert (D3 : u64 * Rabs (rnd p - rnd s) <= u64 * ((F + (3.01 * (u64 * F) + 11 * eta64)) + (G + (3.01 * (u64 * G) + 3 * eta64)))) by (apply Rmult_le_compat_l; lra).
  fold G. replace (rnd (rnd p - rnd s) - (P - G)) with ((rnd (rnd p - rnd s) - (rnd p - rnd s)) + ((rnd p - P) + - (rnd s - G))) by ring. eapply Rle_trans; [apply Rabs_triang|].
  pose proof (Rabs_triang (rnd p - P) (- (rnd s - G))) as D4. rewrite Rabs_Ropp in D4. lra.
Qed.
Theorem poisson_close m (e l : spec_float -> spec_float) mu n :
  (forall h, finite_double h -> -300 <= real h <= 0 -> exp_accurate_at e h) ->
  (forall x, finite_double x -> bpow radix2 (-20) <= real x <= bpow radix2 20 -> log_accurate_at l x) ->
  fl mu -> bpow radix2 (-20) <= val mu <= 100 -> (0 <= n < 10)%Z ->
  let k := Z.to_nat n in let K := 5 * (INR k * Rabs (ln (val mu)) + val mu + ln (INR (fact k))) + 3 in
  exists r, poisson (H := B64 m) (H0 := Btrans e l) mu n = Some (Ret r) /\ fl r /\ Rabs (val r - poisson_pmf (val mu) k) <= K * u64 * poisson_pmf (val mu) k.
Proof.
  intros He Hl Fm Bm Hn k K. pose proof u64_pos as [U0 _]. pose proof u_tiny as U. pose proof eta64_pos as E0. pose proof eta_u as E1. assert (U' : u64 <= 1 / 1000000000000) by lra.
  pose proof (bpow_gt_0 radix2 (-20)) as P20. assert (M0 : 0 < val mu) by lra. assert (F0 : fl (b64_ofZ 0)) by (split; vm_compute; reflexivity). assert (V0 : val (b64_ofZ 0) = 0) by reflexivity.
  assert (C1 : SFleb (b64_ofZ 0) mu = true) by (rewrite leb_ok, V0 by auto; apply Rle_bool_true; lra). assert (C2 : SFeqb mu (b64_ofZ 0) = false) by (rewrite eqb_ok, V0 by auto; apply Req_bool_false; lra).
  assert (C3 : SFltb (b64_ofZ 0) mu = true) by (rewrite ltb_ok, V0 by auto; apply Rlt_bool_true; lra).
  pose proof (exp_pos (INR k * ln (val mu) - (val mu + ln (INR (fact k))))) as X0. pose proof (ln_fact_nonneg k) as LF0. pose proof (pos_INR k) as K0. pose proof (Rabs_pos (ln (val mu))) as AL0.
  assert (KL0 : 0 <= INR k * Rabs (ln (val mu))) by (apply Rmult_le_pos; lra).
  unfold poisson. change (nleb (Num := B64 m) (n0 (H := B64 m)) mu) with (SFleb (b64_ofZ 0) mu). rewrite C1. cbn [oassert rbind]. change (neqb (Num := B64 m) mu (n0 (H := B64 m))) with (SFeqb mu (b64_ofZ 0)). rewrite C2.
  unfold log_poisson. change (nltb (Num := B64 m) (n0 (H := B64 m)) mu) with (SFltb (b64_ofZ 0) mu). rewrite C3. cbn [oassert rbind].
  destruct (Z.eqb_spec n 0) as [N0|N0].
  - cbn [rbind]. change (nopp (Num := B64 m) mu) with (SFopp mu). destruct (opp_ok mu Fm) as [Fo Eo]. assert (B : -300 <= val (SFopp mu) <= 0) by (rewrite Eo; lra). destruct (He _ (proj1 (fl_iff _) Fo) B) as [Fe Be].
    exists (e (SFopp mu)). split; [reflexivity|]. split; [now apply fl_iff|]. change (real (e (SFopp mu))) with (val (e (SFopp mu))) in Be. change (real (SFopp mu)) with (val (SFopp mu)) in Be. change half_ulp with u64 in Be. rewrite Eo in Be.
    assert (Ek : k = O) by (unfold k; rewrite N0; reflexivity). assert (Ep : poisson_pmf (val mu) k = exp (- val mu)) by (rewrite Ek; unfold poisson_pmf; cbn; field). rewrite Ep. eapply Rle_trans; [exact Be|]. pose proof (exp_pos (- val mu)). apply Rmult_le_compat_r; [lra|]. apply Rmult_le_compat_r; [lra|]. unfold K. lra.
  - assert (B100 : 100 <= bpow radix2 20) by (apply Rle_trans with (bpow radix2 7); [change (bpow radix2 7) with 128; lra|apply bpow_le; lia]).
    destruct (Hl mu (proj1 (fl_iff _) Fm) ltac:(change (real mu) with (val mu); lra)) as [FL BL]. apply fl_iff in FL. change (real (l mu)) with (val (l mu)) in BL. change (real mu) with (val mu) in BL. change half_ulp with u64 in BL. change half_tiny with eta64 in BL.
    pose proof (ln_range (val mu) ltac:(lra)) as L14. destruct (C53_factorial_double m (Btrans e l) n ltac:(lia)) as (f & Ef & Ff & Vf & El). fold k in Vf.
    assert (FF : fl f). { assert (Ef' : f = b64_ofZ (Z.of_nat (fact k))). { assert (C : (n = 1 \/ n = 2 \/ n = 3 \/ n = 4 \/ n = 5 \/ n = 6 \/ n = 7 \/ n = 8 \/ n = 9)%Z) by lia. unfold k. clear - Ef C. decompose [or] C; subst n; vm_compute in Ef |- *; congruence. }
      split; [|exact Ff]. rewrite Ef'. assert (Kb : (k < 10)%nat) by (unfold k; lia). clear - Kb. do 10 (destruct k as [|k]; [vm_compute; reflexivity|]). lia. }
    assert (FB : 1 <= INR (fact k) <= bpow radix2 20).
    { assert (Kb : (k < 10)%nat) by (unfold k; lia). clear - Kb. split; [change 1 with (INR 1); apply le_INR, lt_O_fact|]. apply Rle_trans with (INR (fact 9)); [apply le_INR, fact_le; lia|]. rewrite INR_IZR_INZ. change (bpow radix2 20) with (IZR (2 ^ 20)). apply IZR_le. vm_compute. discriminate. }
    assert (B20 : bpow radix2 (-20) <= 1) by (apply (bpow_le radix2 (-20) 0); lia).
    set (lf := if (n <=? 1)%Z then b64_ofZ 0 else l f). assert (LFok : fl lf /\ Rabs (val lf - ln (INR (fact k))) <= 2 * u64 * ln (INR (fact k)) + eta64).
    { unfold lf. destruct (Z.leb_spec n 1) as [N1|N1].
      - assert (Ek : k = 1%nat) by (unfold k; replace n with 1%Z by lia; reflexivity). rewrite Ek, V0. cbn [fact Nat.mul Nat.add INR]. rewrite ln_1. split; [exact F0|]. rewrite Rminus_0_r, Rabs_R0. lra.
      - destruct (Hl f (proj1 (fl_iff _) FF) ltac:(change (real f) with (val f); lra)) as [Fl Bl]. apply fl_iff in Fl. split; [exact Fl|]. change (real (l f)) with (val (l f)) in Bl. change (real f) with (val f) in Bl. rewrite Vf in Bl. rewrite (Rabs_pos_eq (ln _)) in Bl by auto. exact Bl. }
    destruct LFok as [Flf Blf]. change (log_factorial (H := B64 m) (H0 := Btrans e l) n = Some (Ret lf)) in El. rewrite El. cbn [rbind].
    assert (Nf : fl (b64_ofZ n) /\ val (b64_ofZ n) = INR k).
    { unfold k. rewrite INR_IZR_INZ, Z2Nat.id by lia. assert (C : (n = 1 \/ n = 2 \/ n = 3 \/ n = 4 \/ n = 5 \/ n = 6 \/ n = 7 \/ n = 8 \/ n = 9)%Z) by lia. clear - C. decompose [or] C; subst n; (split; [split; vm_compute; reflexivity|vm_compute; lra]). }
    destruct Nf as [Fn Vn]. assert (KB : 1 <= INR k <= 9). { unfold k. rewrite INR_IZR_INZ, Z2Nat.id by lia. split; apply IZR_le; lia. }
    assert (F14 : ln (INR (fact k)) <= 14) by (pose proof (ln_range (INR (fact k)) ltac:(lra)) as Q; rewrite Rabs_pos_eq in Q by auto; exact Q).
    destruct (log_close (INR k) (val (l mu)) (ln (val mu)) (ln (INR (fact k))) (val lf) (val mu) ltac:(lra) L14 ltac:(lra) ltac:(lra) BL Blf) as (G1 & G2 & G3 & G4 & G5). cbv zeta in G5.
    assert (B1024 : 1024 <= big) by (apply (bpow_le radix2 10 1023); lia).
    destruct (mul_ok (b64_ofZ n) (l mu) Fn FL ltac:(rewrite Vn; lra)) as [F1 V1]. rewrite Vn in V1. destruct (add_ok mu lf Fm Flf ltac:(lra)) as [F2 V2].
    change (nmul (Num := B64 m) (nofZ (Num := B64 m) n) (tlog (Trans := Btrans e l) mu)) with (SFmul prec64 emax64 (b64_ofZ n) (l mu)). change (nadd (Num := B64 m) mu lf) with (SFadd prec64 emax64 mu lf).
    set (first := SFmul prec64 emax64 (b64_ofZ n) (l mu)) in *. set (second := SFadd prec64 emax64 mu lf) in *. rewrite <- V1, <- V2 in G5. rewrite <- V1 in G1. rewrite <- V2 in G2.
    assert (DB : Rabs (val first - val second) <= big). { replace (val first - val second) with (val first + - val second) by ring. eapply Rle_trans; [apply Rabs_triang|]. rewrite Rabs_Ropp. lra. }
    destruct (sub_ok first second F1 F2 DB) as [F3 V3]. set (ans := SFsub prec64 emax64 first second) in *. rewrite <- V3 in G5.
    assert (Hk1 : (1 <= k)%nat) by (unfold k; lia). pose proof (poisson_peak (val mu) k M0 Hk1) as Pk.
    set (a := INR k * ln (val mu) - (val mu + ln (INR (fact k)))) in *. set (S := INR k * Rabs (ln (val mu)) + (val mu + ln (INR (fact k)))) in *. assert (S0 : 0 <= S) by (unfold S; lra).
    assert (F126 : INR k * Rabs (ln (val mu)) <= 9 * 14) by (apply Rmult_le_compat; lra). assert (S1 : S <= 240) by (unfold S; lra).
    assert (US : u64 * S <= 1 / 1000000000000 * 240) by (apply Rmult_le_compat; lra). assert (US0 : 0 <= u64 * S) by (apply Rmult_le_pos; lra).
    assert (AS : - S <= a). { unfold a, S. assert (Q : INR k * - Rabs (ln (val mu)) <= INR k * ln (val mu)) by (apply Rmult_le_compat_l; [lra|]; pose proof (Rabs_le_inv _ _ (Rle_refl (Rabs (ln (val mu))))); lra). lra. }
    assert (AB : -300 <= val ans < 0) by (apply Rabs_le_inv in G5; unfold a in *; lra).
    assert (S2 : 0 < val second). { rewrite V2. apply Rlt_le_trans with (rnd (bpow radix2 (-21))); [rewrite rnd_bpow by lia; apply bpow_gt_0|]. apply rnd_mono. assert (E21 : bpow radix2 (-20) = 2 * bpow radix2 (-21)) by (change (-20)%Z with (1 + -21)%Z; rewrite bpow_plus; reflexivity).
      assert (T21 : 2 * eta64 <= bpow radix2 (-21)) by (unfold eta64; change 2 with (bpow radix2 1); rewrite <- bpow_plus; apply bpow_le; lia). assert (UL : u64 * ln (INR (fact k)) <= 1 / 1000000000000 * ln (INR (fact k))) by (apply Rmult_le_compat_r; lra). apply Rabs_le_inv in Blf. pose proof (bpow_gt_0 radix2 (-21)). lra. }
    assert (C4 : SFltb (b64_ofZ 0) second = true) by (rewrite ltb_ok, V0 by auto; apply Rlt_bool_true; lra). assert (C5 : SFltb ans (b64_ofZ 0) = true) by (rewrite ltb_ok, V0 by auto; apply Rlt_bool_true; lra).
    change (nltb (Num := B64 m) (n0 (H := B64 m)) second) with (SFltb (b64_ofZ 0) second). rewrite C4. cbn [oassert]. change (nsub (Num := B64 m) first second) with ans. change (nltb (Num := B64 m) ans (n0 (H := B64 m))) with (SFltb ans (b64_ofZ 0)). rewrite C5. cbn [oassert rbind].
    destruct (He ans (proj1 (fl_iff _) F3) ltac:(change (real ans) with (val ans); lra)) as [Fe Be]. exists (e ans). split; [reflexivity|]. split; [now apply fl_iff|]. change (real (e ans)) with (val (e ans)) in Be. change (real ans) with (val ans) in Be. change half_ulp with u64 in Be.
    rewrite pmf_exp by auto. fold a. eapply Rle_trans; [apply (exp_shift a (val ans) (val (e ans)) _ G5 ltac:(lra) Be)|]. apply Rmult_le_compat_r; [lra|]. assert (KE : K = 5 * S + 3) by (unfold K, S; ring). rewrite KE. lra.
Qed.
