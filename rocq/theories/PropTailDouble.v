(** C61 in doubles: GaussianConditional far above the mean. *)
From Coq Require Import ZArith Reals SpecFloat Lra Lia.
From Flocq Require Import Core IEEE754.BinarySingleNaN.
From Verif Require Import Base Scalar ConstSpec B64Lib B64Ops RoundLib RoundProofs2 SegDouble MiniballModel PropBoxDouble TailDouble SeriesDouble TailDouble2.
From Verif Require Import ProbModel ProbDoubleModel RoundSpec.
Open Scope R_scope.

(** Refuted: GaussianConditional ends.  From 2^513 standard deviations above the mean the square of the distance overflows, the continued fraction starts
    with infinity times zero, and its loop goes on for ever, whatever exp and log are: no number of steps is enough. *)
Theorem C61_gaussian_conditional_ends_refuted : forall (m : libm) (e l : spec_float -> spec_float) mean stddev x,
  finite_double mean -> finite_double stddev -> finite_double x -> real stddev <> 0 ->
  Rabs (real x - real mean) <= bpow radix2 1022 -> bpow radix2 513 <= (real x - real mean) / real stddev <= bpow radix2 1022 ->
  forall steps, gaussian_conditional (H := B64 m) (H0 := Btrans e l) steps mean stddev x = None.
Proof.
  intros m e l mu s x Fm Fs Fx S0 B1 B2 steps. apply fl_iff in Fm, Fs, Fx. assert (Hb : bpow radix2 1022 = big / 2) by (unfold big; change 1023%Z with (1022 + 1)%Z; rewrite bpow_plus; change (bpow radix2 1) with 2; field).
  rewrite Hb in B1, B2. exact (far_never m e l mu s x Fm Fs Fx S0 B1 B2 steps).
Qed.
Print Assumptions C61_gaussian_conditional_ends_refuted.
(** GaussianConditional(0, 1, 2^600). *)
Example C61_gaussian_conditional_ends_example : let x := S754_finite false 4503599627370496 548 in
  finite_double (b64_ofZ 0) /\ finite_double (b64_ofZ 1) /\ finite_double x /\ real (b64_ofZ 1) <> 0 /\
  Rabs (real x - real (b64_ofZ 0)) <= bpow radix2 1022 /\ bpow radix2 513 <= (real x - real (b64_ofZ 0)) / real (b64_ofZ 1) <= bpow radix2 1022.
Proof.
  intros x. do 3 (split; [apply fl_iff; split; vm_compute; reflexivity|]). change (real (b64_ofZ 1)) with (val (b64_ofZ 1)). change (real (b64_ofZ 0)) with 0. rewrite v1.
  assert (V : real x = bpow radix2 600). { unfold real, x, SF2R, F2R. cbn [Fnum Fexp SpecFloat.cond_Zopp]. change 600%Z with (52 + 548)%Z. rewrite bpow_plus. reflexivity. }
  rewrite V. split; [lra|]. rewrite Rminus_0_r. replace (bpow radix2 600 / 1) with (bpow radix2 600) by field. rewrite Rabs_pos_eq by apply bpow_ge_0. repeat split; apply bpow_le; lia.
Qed.

(** Refuted: PoissonConditional ends.  For means from 2^1023 on the tolerance of the continued fraction is zero, and equal approximants do not end it:
    there is never a value, and unless an assertion fails before no number of steps is enough. *)
Lemma poisson_conditional_far (m : libm) (e l : spec_float -> spec_float) mean n steps : fl mean -> bpow radix2 1023 <= val mean -> (1 <= n < 2 ^ 32 - 1)%Z ->
  poisson_conditional (H := B64 m) (H0 := Btrans e l) steps mean n =
  rbind (poisson (H := B64 m) (H0 := Btrans e l) mean n) (fun _ => rbind (log_gamma (H := B64 m) (H0 := Btrans e l) (b64_ofZ n)) (fun _ => None)).
Proof.
  intros Fm Bm Hn. destruct (ofZ_whole 0 ltac:(lia)) as [F0 V0]. destruct (ofZ_whole 1 ltac:(lia)) as [F1 V1]. destruct (ofZ_whole n ltac:(lia)) as [Fn Vn]. destruct (ofZ_whole (n + 1) ltac:(lia)) as [Fp Vp].
  assert (N1 : 1 <= IZR n) by (apply IZR_le; lia). assert (Nb : IZR (n + 1) <= bpow radix2 40) by (change (bpow radix2 40) with (IZR (2 ^ 40)); apply IZR_le; lia). assert (L : bpow radix2 40 < bpow radix2 1023) by (apply bpow_lt; lia). pose proof (bpow_gt_0 radix2 1023) as P.
  unfold poisson_conditional. change (nleb (Num := B64 m) (n0 (H := B64 m)) mean) with (SFleb (b64_ofZ 0) mean). rewrite (leb_ok _ _ F0 Fm), V0, Rle_bool_true by lra. cbn [oassert rbind].
  change (neqb (Num := B64 m) mean (n0 (H := B64 m))) with (SFeqb mean (b64_ofZ 0)). rewrite (eqb_ok _ _ Fm F0), V0, Req_bool_false by lra. destruct (Z.eqb_spec n 0) as [Zn|Zn]; [lia|].
  assert (W : uwrap (n + 1) = (n + 1)%Z) by (unfold uwrap; apply Z.mod_small; lia). rewrite W. change (nltb (Num := B64 m) (nofZ (Num := B64 m) (n + 1)) mean) with (SFltb (b64_ofZ (n + 1)) mean). rewrite (ltb_ok _ _ Fp Fm), Vp, Rlt_bool_true by lra.
  assert (Bg : Rabs (val (b64_ofZ n) + val (b64_ofZ 1)) <= big). { rewrite Vn, V1, <- plus_IZR, Rabs_pos_eq by (apply IZR_le; lia). eapply Rle_trans; [exact Nb|]. apply bpow_le. lia. }
  destruct (add_ok _ _ Fn F1 Bg) as [Fs Es]. rewrite Vn, V1, <- plus_IZR, rnd_whole in Es by lia.
  unfold igam. cbn [igam_]. change (nofZ (Num := B64 m) n) with (b64_ofZ n).
  change (nleb (Num := B64 m) (n0 (H := B64 m)) mean) with (SFleb (b64_ofZ 0) mean). rewrite (leb_ok _ _ F0 Fm), V0, Rle_bool_true by lra. change (nleb (Num := B64 m) (n0 (H := B64 m)) (b64_ofZ n)) with (SFleb (b64_ofZ 0) (b64_ofZ n)). rewrite (leb_ok _ _ F0 Fn), V0, Vn, Rle_bool_true by lra. cbn [andb oassert rbind].
  change (neqb (Num := B64 m) (b64_ofZ n) (n0 (H := B64 m))) with (SFeqb (b64_ofZ n) (b64_ofZ 0)). rewrite (eqb_ok _ _ Fn F0), V0, Vn, Req_bool_false by lra.
  change (neqb (Num := B64 m) mean (n0 (H := B64 m))) with (SFeqb mean (b64_ofZ 0)). rewrite (eqb_ok _ _ Fm F0), V0, Req_bool_false by lra.
  change (nadd (Num := B64 m) (b64_ofZ n) (n1 (H := B64 m))) with (SFadd prec64 emax64 (b64_ofZ n) (b64_ofZ 1)). set (s := SFadd prec64 emax64 (b64_ofZ n) (b64_ofZ 1)) in *.
  change (nltb (Num := B64 m) s mean) with (SFltb s mean). rewrite (ltb_ok _ _ Fs Fm), Es, Rlt_bool_true by lra. change (nltb (Num := B64 m) mean s) with (SFltb mean s). rewrite (ltb_ok _ _ Fm Fs), Es, Rlt_bool_false by lra.
  assert (Nb' : IZR n <= bpow radix2 40) by (rewrite plus_IZR in Nb; lra). rewrite (igamc_forever m e l (b64_ofZ n) mean Fn ltac:(rewrite Vn; lra) Fm Bm).
  destruct (poisson (H := B64 m) (H0 := Btrans e l) mean n) as [[p| | |]|]; try reflexivity. cbn [rbind]. destruct (log_gamma (H := B64 m) (H0 := Btrans e l) (b64_ofZ n)) as [[g| | |]|]; reflexivity.
Qed.
Theorem C61_poisson_conditional_ends_refuted : forall (m : libm) (e l : spec_float -> spec_float) mean n,
  finite_double mean -> bpow radix2 1023 <= real mean -> (1 <= n < 2 ^ 32 - 1)%Z ->
  (forall steps v, poisson_conditional (H := B64 m) (H0 := Btrans e l) steps mean n <> Some (Ret v)) /\
  (forall p g, poisson (H := B64 m) (H0 := Btrans e l) mean n = Some (Ret p) -> log_gamma (H := B64 m) (H0 := Btrans e l) (b64_ofZ n) = Some (Ret g) ->
     forall steps, poisson_conditional (H := B64 m) (H0 := Btrans e l) steps mean n = None).
Proof.
  intros m e l mean n Fm Bm Hn. apply fl_iff in Fm. split.
  - intros steps v. rewrite (poisson_conditional_far m e l mean n steps Fm Bm Hn). destruct (poisson _ _) as [[p| | |]|]; try discriminate. cbn [rbind]. destruct (log_gamma _) as [[g| | |]|]; discriminate.
  - intros p g Ep Eg steps. rewrite (poisson_conditional_far m e l mean n steps Fm Bm Hn), Ep. cbn [rbind]. rewrite Eg. reflexivity.
Qed.
Print Assumptions C61_poisson_conditional_ends_refuted.
(** PoissonConditional(2^1023, 4). *)
Example C61_poisson_conditional_ends_example : let mean := S754_finite false 4503599627370496 971 in finite_double mean /\ bpow radix2 1023 <= real mean /\ (1 <= 4 < 2 ^ 32 - 1)%Z.
Proof.
  intros mean. split; [apply fl_iff; split; vm_compute; reflexivity|]. split; [|lia]. right. unfold real, mean, SF2R, F2R. cbn [Fnum Fexp SpecFloat.cond_Zopp]. change 1023%Z with (52 + 971)%Z. rewrite bpow_plus. reflexivity.
Qed.
