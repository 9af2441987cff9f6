(** The continued fraction in doubles, for arguments next to the largest double: proofs. *)
From Coq Require Import ZArith Reals Bool SpecFloat Lia Lra.
From Flocq Require Import Core IEEE754.BinarySingleNaN.
From Verif Require Import Base Scalar OrdLib RLib B64Lib B64Ops FloatOps ConstSpec RoundLib RoundProofs RSpec RoundProofs2 SegDouble DecProofs3 MiniballModel LitModel SeriesDouble.
From Verif Require Import ProbModel ProbDoubleModel.
Open Scope R_scope.

Lemma rnd_stay x y e : generic_format radix2 (FLT_exp (-1074) 53) x -> (exists j, x = IZR j * bpow radix2 e) -> (exists k, rnd y = IZR k * bpow radix2 e) -> Rabs (y - x) < bpow radix2 e / 2 -> rnd y = x.
Proof.
  intros F Jx Ky B. assert (N : Rabs (rnd y - y) <= Rabs (x - y)). { rewrite rnd_FLT. destruct (round_N_pt radix2 (FLT_exp (-1074) 53) (fun z => negb (Z.even z)) y) as [_ H]. apply H, F. }
  rewrite (Rabs_minus_sym x y) in N. assert (D : Rabs (rnd y - x) < bpow radix2 e). { replace (rnd y - x) with ((rnd y - y) + (y - x)) by ring. eapply Rle_lt_trans; [apply Rabs_triang|]. lra. }
  apply Rabs_def2 in D. destruct (Rtotal_order (rnd y) x) as [L|[E|L]]; [|exact E|]; exfalso.
  - pose proof (gap_mult _ _ e Ky Jx L). lra.
  - pose proof (gap_mult _ _ e Jx Ky L). lra.
Qed.
Lemma rnd_format' y : generic_format radix2 (FLT_exp (-1074) 53) (rnd y).
Proof. rewrite rnd_FLT. apply generic_format_round; typeclasses eauto. Qed.
Lemma tiny_multiple z : generic_format radix2 (FLT_exp (-1074) 53) z -> exists k, z = IZR k * bpow radix2 (-1074).
Proof. intros F. apply multiple; auto. unfold cexp, FLT_exp. lia. Qed.
Lemma big_multiple z : generic_format radix2 (FLT_exp (-1074) 53) z -> bpow radix2 1022 <= z -> exists k, z = IZR k * bpow radix2 970.
Proof.
  intros F B. pose proof (bpow_gt_0 radix2 1022) as P. apply multiple; auto. pose proof (cx_above z ltac:(lra)) as C. rewrite Rabs_pos_eq in C by lra. assert (L : bpow radix2 1022 < bpow radix2 (cexp radix2 (FLT_exp (-1074) 53) z + 53)) by lra. apply lt_bpow in L. lia.
Qed.
(** A large number does not change when a small one is added ... *)
Lemma absorb b x : fl b -> bpow radix2 1023 <= val b -> Rabs x <= bpow radix2 200 -> rnd (val b + x) = val b.
Proof.
  intros Fb Bb Bx. assert (F : generic_format radix2 (FLT_exp (-1074) 53) (val b)) by now apply fl_format. assert (E : bpow radix2 1023 = 2 * bpow radix2 1022) by (change 1023%Z with (1 + 1022)%Z; rewrite bpow_plus; reflexivity).
  assert (L : bpow radix2 200 < bpow radix2 969) by (apply bpow_lt; lia). assert (L' : bpow radix2 969 < bpow radix2 1022) by (apply bpow_lt; lia). pose proof (bpow_gt_0 radix2 1022) as P. assert (E970 : bpow radix2 970 / 2 = bpow radix2 969) by (change 970%Z with (1 + 969)%Z; rewrite bpow_plus; change (bpow radix2 1) with 2; field).
  pose proof (Rabs_le_inv _ _ Bx) as Bx'. apply (rnd_stay _ _ 970); auto.
  - apply big_multiple; auto. lra.
  - apply big_multiple; [apply rnd_format'|]. rewrite <- (rnd_bpow 1022) by lia. apply rnd_mono. lra.
  - replace (val b + x - val b) with x by ring. lra.
Qed.
(** ... and a tiny one multiplied and divided by it comes back. *)
Lemma there_and_back b a : fl b -> fl a -> bpow radix2 1023 <= val b -> 0 <= val a <= bpow radix2 (-1023) -> rnd (rnd (val b * val a) / val b) = val a.
Proof.
  intros Fb Fa Bb Ba. pose proof (bpow_gt_0 radix2 1023) as P. set (p := val b * val a). destruct (Req_dec (val a) 0) as [Z|N].
  { unfold p. rewrite Z, Rmult_0_r, rnd_0. unfold Rdiv. rewrite Rmult_0_l. apply rnd_0. }
  apply (rnd_stay _ _ (-1074)); [now apply fl_format|apply tiny_multiple; now apply fl_format|apply tiny_multiple, rnd_format'|].
  assert (La : bpow radix2 (-1074) <= val a). { destruct (tiny_multiple (val a) (fl_format a Fa)) as [k Ek]. rewrite Ek in *. pose proof (bpow_gt_0 radix2 (-1074)) as Q. assert (K : (0 < k)%Z). { apply lt_IZR. apply Rmult_lt_reg_r with (bpow radix2 (-1074)); auto. rewrite Rmult_0_l. lra. } assert (1 <= IZR k) by (apply IZR_le; lia). rewrite <- (Rmult_1_l (bpow radix2 (-1074))) at 1. apply Rmult_le_compat_r; lra. }
  assert (Lp : bpow radix2 (-1022) <= Rabs p). { unfold p. rewrite Rabs_pos_eq by (apply Rmult_le_pos; lra). apply Rle_trans with (bpow radix2 1023 * bpow radix2 (-1074)); [rewrite <- bpow_plus; apply bpow_le; lia|]. pose proof (bpow_ge_0 radix2 (-1074)). apply Rmult_le_compat; lra. }
  pose proof (rnd_rel_err p Lp) as R. replace (rnd p / val b - val a) with ((rnd p - p) / val b) by (unfold p; field; lra). unfold Rdiv at 1. rewrite Rabs_mult, (Rabs_pos_eq (/ val b)) by (left; apply Rinv_0_lt_compat; lra).
  apply Rle_lt_trans with (u64 * Rabs p * / val b); [apply Rmult_le_compat_r; [left; apply Rinv_0_lt_compat; lra|exact R]|]. unfold p. rewrite Rabs_pos_eq by (apply Rmult_le_pos; lra). replace (u64 * (val b * val a) * / val b) with (u64 * val a) by (field; lra).
  apply Rle_lt_trans with (u64 * bpow radix2 (-1023)); [apply Rmult_le_compat_l; [apply bpow_ge_0|lra]|]. unfold u64. rewrite <- bpow_plus. change (-1074)%Z with (1 + -1075)%Z. rewrite (bpow_plus radix2 1). change (bpow radix2 1) with 2. replace (2 * bpow radix2 (-1075) / 2) with (bpow radix2 (-1075)) by field. apply bpow_lt. lia.
Qed.

Section Loop.
Variables (m : libm) (e l : spec_float -> spec_float).
Let E : Num spec_float := B64 m.
Let T : Trans spec_float := Btrans e l.
Variables a b : spec_float.
Hypotheses (Fa : fl a) (Ba : 0 < val a <= bpow radix2 40) (Fb : fl b) (Bb : bpow radix2 1023 <= val b).
Lemma unfold_cf k bc al bl an bn t z : cf_loop (H := E) (H0 := T) (S k) a bc al bl an bn t z =
  (let ac := SFmul prec64 emax64 t (SFsub prec64 emax64 a t) in let bc' := SFadd prec64 emax64 bc (b64_ofZ 2) in
   let an' := SFadd prec64 emax64 (SFmul prec64 emax64 bc' an) (SFmul prec64 emax64 ac al) in let bn' := SFadd prec64 emax64 (SFmul prec64 emax64 bc' bn) (SFmul prec64 emax64 ac bl) in
   let nz := SFleb (SFabs bn') (SFmul prec64 emax64 (SFabs an') (cf_small (H := E))) in let t' := SFadd prec64 emax64 t (b64_ofZ 1) in
   if nz then cf_loop (H := E) (H0 := T) k a bc' an bn an' bn' t' nz
   else let an2 := SFdiv prec64 emax64 an' bn' in
     if negb z && SFltb (SFabs (SFsub prec64 emax64 an2 an)) (SFmul prec64 emax64 (SFabs an) (SFldexp prec64 emax64 (b64_ofZ 1) (-52))) then Some (Ret an2)
     else cf_loop (H := E) (H0 := T) k a bc' (SFdiv prec64 emax64 an bn') (SFdiv prec64 emax64 bn bn') an2 (b64_ofZ 1) t' nz).
Proof. reflexivity. Qed.
Lemma small_ok : fl (cf_small (H := E)) /\ 0 <= val (cf_small (H := E)) <= 1.
Proof.
  split; [split; vm_compute; reflexivity|]. assert (X : cf_small (H := E) = S754_finite false 8796093022208000 (-1065)) by (vm_compute; reflexivity). rewrite X. unfold val, SF2R, F2R. cbn [Fnum Fexp SpecFloat.cond_Zopp]. split; [apply Rmult_le_pos; [apply IZR_le; lia|apply bpow_ge_0]|].
  apply Rle_trans with (bpow radix2 53 * bpow radix2 (-1065)); [apply Rmult_le_compat_r; [apply bpow_ge_0|]; change (bpow radix2 53) with (IZR (2 ^ 53)); apply IZR_le; lia|]. rewrite <- bpow_plus. apply (bpow_le radix2 _ 0). lia.
Qed.
Lemma add_stay x y : fl x -> val x = val b -> fl y -> Rabs (val y) <= bpow radix2 200 -> fl (SFadd prec64 emax64 x y) /\ val (SFadd prec64 emax64 x y) = val b.
Proof.
  intros [Dx Fx] Ex [Dy Fy] By. pose proof (absorb b (val y) Fb Bb By) as A. rewrite <- Ex in A. pose proof (Bplus_correct prec64 emax64 _ _ mode_NE (SF2B x Dx) (SF2B y Dy)) as C. rewrite !is_finite_SF2B in C. specialize (C Fx Fy). cbn [round_mode] in C. rewrite !B2R_SF2B in C. fold (val x) (val y) in C. fold (rnd (val x + val y)) in C. rewrite A in C.
  rewrite Rlt_bool_true in C by apply (val_bound prec64 emax64 x Dx). destruct C as (C1 & C2 & _).
  pose proof (SFadd_B (SF2B x Dx) (SF2B y Dy)) as M. rewrite !B2SF_SF2B in M. rewrite M. split; [split; [apply double_B|unfold finite; rewrite is_finite_SF_B2SF; exact C2]|]. rewrite val_B, <- Ex. exact C1.
Qed.
Lemma mul_one x : fl x -> fl (SFmul prec64 emax64 x (b64_ofZ 1)) /\ val (SFmul prec64 emax64 x (b64_ofZ 1)) = val x.
Proof.
  intros Fx. destruct (ofZ_whole 1 ltac:(lia)) as [[D1 F1] V1]. assert (R : rnd (val x * val (b64_ofZ 1)) = val x) by (rewrite V1, Rmult_1_r; now apply rnd_idem). destruct Fx as [Dx Fx].
  destruct (mul_correct prec64 emax64 ltac:(reflexivity) ltac:(reflexivity) x (b64_ofZ 1) Dx D1 Fx F1) as (V & F & Ev); [fold (rnd (val x * val (b64_ofZ 1))); rewrite R; apply (val_bound prec64 emax64 x Dx)|].
  split; [split; auto|]. rewrite Ev. exact R.
Qed.
Lemma rnd_vanish x : 0 <= x <= bpow radix2 (-1075) -> rnd x = 0.
Proof.
  intros [X0 X1]. apply Rle_antisym; [|now apply rnd_nonneg]. assert (F1 : fl (S754_finite false 2251799813685248 (-1074))) by (split; vm_compute; reflexivity). assert (F2 : fl (S754_finite false 4503599627370496 (-104))) by (split; vm_compute; reflexivity).
  assert (V : val (S754_finite false 2251799813685248 (-1074)) * val (S754_finite false 4503599627370496 (-104)) = bpow radix2 (-1075)).
  { unfold val, SF2R, F2R. cbn [Fnum Fexp SpecFloat.cond_Zopp]. change (IZR 2251799813685248) with (bpow radix2 51). change (IZR 4503599627370496) with (bpow radix2 52). rewrite <- !bpow_plus. reflexivity. }
  destruct (mul_ok _ _ F1 F2) as [_ M]; [rewrite V, Rabs_pos_eq by apply bpow_ge_0; apply bpow_le; lia|]. rewrite V in M. assert (Z : rnd (bpow radix2 (-1075)) = 0) by (rewrite <- M; reflexivity). rewrite <- Z. now apply rnd_mono.
Qed.
Lemma count_ok t : fl t -> 0 <= val t <= bpow radix2 53 -> fl (SFadd prec64 emax64 t (b64_ofZ 1)) /\ 0 <= val (SFadd prec64 emax64 t (b64_ofZ 1)) <= bpow radix2 53.
Proof.
  intros Ft Bt. destruct (ofZ_whole 1 ltac:(lia)) as [F1 V1]. destruct (ofZ_whole (2 ^ 53) ltac:(lia)) as [F53 V53]. assert (B54 : bpow radix2 53 + 1 <= bpow radix2 54) by (change 54%Z with (1 + 53)%Z; rewrite bpow_plus; change (bpow radix2 1) with 2; assert (1 <= bpow radix2 53) by (apply (bpow_le radix2 0); lia); lra).
  assert (B1 : bpow radix2 54 <= big) by (apply bpow_le; lia). destruct (add_ok t _ Ft F1 ltac:(rewrite V1, Rabs_pos_eq; lra)) as [Fs Es]. split; [exact Fs|]. rewrite Es, V1. split; [apply rnd_nonneg; lra|].
  change (IZR (2 ^ 53)) with (bpow radix2 53) in V53. destruct (add_ok _ _ F53 F1 ltac:(rewrite V1, V53, Rabs_pos_eq by (pose proof (bpow_ge_0 radix2 53); lra); lra)) as [_ M]. rewrite V53, V1 in M.
  assert (X : SFadd prec64 emax64 (b64_ofZ (2 ^ 53)) (b64_ofZ 1) = b64_ofZ (2 ^ 53)) by (vm_compute; reflexivity). rewrite X, V53 in M. rewrite M. apply rnd_mono. lra.
Qed.
(** The state: the sum b does not change, nothing is left of the approximant before the last, and the last is so small that the tolerance is zero. *)
Lemma forever fuel : forall bc al bl an t z, fl bc -> val bc = val b -> fl al -> val al = 0 -> fl bl -> 0 <= val bl <= bpow radix2 (-1022) -> fl an -> 0 <= val an <= bpow radix2 (-1023) -> fl t -> 0 <= val t <= bpow radix2 53 ->
  cf_loop (H := E) (H0 := T) fuel a bc al bl an (b64_ofZ 1) t z = None.
Proof.
  induction fuel as [|k IH]; intros bc al bl an t z Fbc Vbc Fal Val Fbl Bbl Fan Ban Ft Bt; [reflexivity|]. rewrite unfold_cf. cbv zeta. pose proof (bpow_gt_0 radix2 1023) as P.
  destruct (ofZ_whole 1 ltac:(lia)) as [F1 V1]. destruct (ofZ_whole 2 ltac:(lia)) as [F2 V2]. destruct small_ok as [Fs Bs]. destruct ulp_ok as [Fu Eu].
  assert (B4 : 4 <= big) by (apply (bpow_le radix2 2 1023); lia). assert (Bbig : val b < bpow radix2 1024) by (destruct Fb as [Db _]; apply (Rle_lt_trans _ (Rabs (val b))); [apply Rle_abs|]; apply (val_bound prec64 emax64 b Db)).
  assert (Le40 : bpow radix2 40 <= bpow radix2 53) by (apply bpow_le; lia). assert (B200 : 4 <= bpow radix2 200) by (apply (bpow_le radix2 2 200); lia).
  assert (Bs1 : Rabs (val a - val t) <= bpow radix2 53) by (apply Rabs_le; lra). assert (B53 : bpow radix2 53 <= big) by (apply bpow_le; lia). destruct (sub_ok a t Fa Ft ltac:(lra)) as [Fd Ed]. assert (Bd : Rabs (val (SFsub prec64 emax64 a t)) <= bpow radix2 53) by (rewrite Ed; apply rnd_abs_le; [lia|exact Bs1]).
  assert (Bm1 : Rabs (val t * val (SFsub prec64 emax64 a t)) <= bpow radix2 106). { rewrite Rabs_mult. change 106%Z with (53 + 53)%Z. rewrite bpow_plus. apply Rmult_le_compat; try apply Rabs_pos; auto. rewrite Rabs_pos_eq; lra. }
  destruct (mul_ok t _ Ft Fd ltac:(eapply Rle_trans; [exact Bm1|apply bpow_le; lia])) as [Fac Eac]. set (ac := SFmul prec64 emax64 t (SFsub prec64 emax64 a t)) in *. assert (Bac : Rabs (val ac) <= bpow radix2 106) by (rewrite Eac; apply rnd_abs_le; [lia|exact Bm1]).
  destruct (add_stay bc (b64_ofZ 2) Fbc Vbc F2 ltac:(rewrite V2, Rabs_pos_eq; lra)) as [Fc Vc]. set (bc' := SFadd prec64 emax64 bc (b64_ofZ 2)) in *.
  assert (E1 : bpow radix2 1024 * bpow radix2 (-1023) = 2) by (rewrite <- bpow_plus; reflexivity).
  assert (Ba1 : 0 <= val b * val an <= 2). { split; [apply Rmult_le_pos; lra|]. rewrite <- E1. apply Rmult_le_compat; lra. }
  destruct (mul_ok bc' an Fc Fan ltac:(rewrite Vc, Rabs_pos_eq; lra)) as [Fp1 Ep1]. rewrite Vc in Ep1. destruct (mul_ok ac al Fac Fal ltac:(rewrite Val, Rmult_0_r, Rabs_R0; lra)) as [Fp2 Ep2]. rewrite Val, Rmult_0_r, rnd_0 in Ep2.
  assert (R2 : rnd 2 = 2) by (apply (rnd_whole 2); lia). assert (Rp : 0 <= rnd (val b * val an) <= 2) by (split; [apply rnd_nonneg; lra|rewrite <- R2; apply rnd_mono; lra]).
  destruct (add_ok _ _ Fp1 Fp2 ltac:(rewrite Ep1, Ep2, Rabs_pos_eq; lra)) as [Fa' Ea']. rewrite Ep2, Rplus_0_r, (rnd_idem _ Fp1), Ep1 in Ea'. set (an' := SFadd prec64 emax64 _ (SFmul prec64 emax64 ac al)) in *.
  destruct (mul_one bc' Fc) as [Fp3 Vp3]. rewrite Vc in Vp3. assert (Bp4 : Rabs (val ac * val bl) <= bpow radix2 200). { rewrite Rabs_mult. apply Rle_trans with (bpow radix2 106 * bpow radix2 (-1022)); [apply Rmult_le_compat; try apply Rabs_pos; auto; rewrite Rabs_pos_eq; lra|]. rewrite <- bpow_plus. apply bpow_le. lia. }
  destruct (mul_ok ac bl Fac Fbl ltac:(eapply Rle_trans; [exact Bp4|apply bpow_le; lia])) as [Fp4 Ep4]. assert (Bp4' : Rabs (val (SFmul prec64 emax64 ac bl)) <= bpow radix2 200) by (rewrite Ep4; apply rnd_abs_le; [lia|exact Bp4]).
  destruct (add_stay _ _ Fp3 Vp3 Fp4 Bp4') as [Fb' Vb']. set (bn' := SFadd prec64 emax64 _ (SFmul prec64 emax64 ac bl)) in *.
  destruct (abs_ok _ Fb') as [Fab Eab]. destruct (abs_ok _ Fa') as [Faa Eaa]. rewrite Vb', Rabs_pos_eq in Eab by lra. rewrite Ea', Rabs_pos_eq in Eaa by lra.
  assert (Bsm : 0 <= val (SFabs an') * val (cf_small (H := E)) <= 2). { rewrite Eaa. split; [apply Rmult_le_pos; lra|]. replace 2 with (2 * 1) by ring. apply Rmult_le_compat; lra. }
  destruct (mul_ok _ _ Faa Fs ltac:(rewrite Rabs_pos_eq; lra)) as [Fsm Esm]. assert (Bsm' : val (SFmul prec64 emax64 (SFabs an') (cf_small (H := E))) <= 2) by (rewrite Esm, <- R2; apply rnd_mono; lra).
  assert (Nz : SFleb (SFabs bn') (SFmul prec64 emax64 (SFabs an') (cf_small (H := E))) = false). { rewrite (leb_ok _ _ Fab Fsm). apply Rle_bool_false. rewrite Eab. assert (2 < bpow radix2 1023) by (apply (bpow_lt radix2 1 1023); lia). lra. }
  rewrite Nz. assert (Ib : 0 < / val b <= bpow radix2 (-1023)) by (split; [apply Rinv_0_lt_compat; lra|change (-1023)%Z with (Z.opp 1023); rewrite bpow_opp; apply Rinv_le; lra]). assert (L23 : bpow radix2 (-1023) <= 1) by (apply (bpow_le radix2 (-1023) 0); lia). pose proof (bpow_gt_0 radix2 (-1023)) as P23.
  assert (Bq : 0 <= val an' / val bn' <= 2). { rewrite Ea', Vb'. unfold Rdiv. split; [apply Rmult_le_pos; lra|]. replace 2 with (2 * 1) by ring. apply Rmult_le_compat; lra. }
  destruct (div_ok an' bn' Fa' Fb' ltac:(lra) ltac:(rewrite Rabs_pos_eq; lra)) as [Fq Eq]. rewrite Ea', Vb', there_and_back in Eq by auto. set (an2 := SFdiv prec64 emax64 an' bn') in *.
  destruct (sub_ok an2 an Fq Fan ltac:(rewrite Eq, Rminus_diag_eq, Rabs_R0 by reflexivity; lra)) as [Fdf Edf]. rewrite Eq, Rminus_diag_eq, rnd_0 in Edf by reflexivity. destruct (abs_ok _ Fdf) as [Fad Ead]. rewrite Edf, Rabs_R0 in Ead.
  destruct (abs_ok _ Fan) as [Fan' Ean']. rewrite Rabs_pos_eq in Ean' by lra. pose proof (bpow_gt_0 radix2 (-52)) as P52. assert (Tl : 0 <= val an * bpow radix2 (-52) <= bpow radix2 (-1075)). { split; [apply Rmult_le_pos; lra|]. change (-1075)%Z with (-1023 + -52)%Z. rewrite (bpow_plus radix2 (-1023)). apply Rmult_le_compat_r; lra. }
  assert (L75 : bpow radix2 (-1075) <= 1) by (apply (bpow_le radix2 (-1075) 0); lia).
  destruct (mul_ok _ _ Fan' Fu ltac:(rewrite Ean', Eu, Rabs_pos_eq; lra)) as [Ftl Etl]. rewrite Ean', Eu, (rnd_vanish _ Tl) in Etl.
  rewrite (ltb_ok _ _ Fad Ftl), Ead, Etl, Rlt_bool_false, andb_false_r by lra.
  assert (Bal : 0 <= val an / val bn' <= bpow radix2 (-1075)). { rewrite Vb'. unfold Rdiv. split; [apply Rmult_le_pos; lra|]. apply Rle_trans with (bpow radix2 (-1023) * bpow radix2 (-1023)); [apply Rmult_le_compat; lra|]. rewrite <- bpow_plus. apply bpow_le. lia. }
  destruct (div_ok an bn' Fan Fb' ltac:(lra) ltac:(rewrite Rabs_pos_eq; lra)) as [Fal' Eal']. rewrite (rnd_vanish _ Bal) in Eal'.
  assert (Bbl' : 0 <= val (b64_ofZ 1) / val bn' <= bpow radix2 (-1023)). { rewrite V1, Vb'. unfold Rdiv. rewrite Rmult_1_l. lra. }
  destruct (div_ok (b64_ofZ 1) bn' F1 Fb' ltac:(lra) ltac:(rewrite Rabs_pos_eq; lra)) as [Fbl' Ebl']. assert (Bbl2 : 0 <= val (SFdiv prec64 emax64 (b64_ofZ 1) bn') <= bpow radix2 (-1022)).
  { rewrite Ebl'. split; [apply rnd_nonneg; lra|]. rewrite <- (rnd_bpow (-1022)) by lia. apply rnd_mono. assert (bpow radix2 (-1023) <= bpow radix2 (-1022)) by (apply bpow_le; lia). lra. }
  destruct (count_ok t Ft Bt) as [Ft' Bt']. apply IH; auto. rewrite Eq. exact Ban.
Qed.
(** IncompleteGammaComplementNoPrefactor(a, b). *)
Lemma igamc_forever fuel : igamc_nop (H := E) (H0 := T) fuel a b = None.
Proof.
  destruct (ofZ_whole 1 ltac:(lia)) as [F1 V1]. destruct (ofZ_whole 0 ltac:(lia)) as [F0 V0]. pose proof (bpow_gt_0 radix2 1023) as P. assert (B40 : bpow radix2 40 + 1 <= bpow radix2 41) by (change 41%Z with (1 + 40)%Z; rewrite (bpow_plus radix2 1); change (bpow radix2 1) with 2; assert (1 <= bpow radix2 40) by (apply (bpow_le radix2 0); lia); lra).
  assert (B41 : bpow radix2 41 <= big) by (apply bpow_le; lia). assert (L200 : bpow radix2 41 <= bpow radix2 200) by (apply bpow_le; lia).
  unfold igamc_nop. destruct (add_ok a _ Fa F1 ltac:(rewrite V1, Rabs_pos_eq; lra)) as [Fs Es]. assert (Bs1 : val (SFadd prec64 emax64 a (b64_ofZ 1)) <= bpow radix2 41) by (rewrite Es, V1, <- (rnd_bpow 41) by lia; apply rnd_mono; lra).
  change (nleb (Num := E) (nadd (Num := E) a (n1 (H := E))) b) with (SFleb (SFadd prec64 emax64 a (b64_ofZ 1)) b). rewrite (leb_ok _ _ Fs Fb), Rle_bool_true by (unfold big in B41; lra). change (nltb (Num := E) (n0 (H := E)) a) with (SFltb (b64_ofZ 0) a). rewrite (ltb_ok _ _ F0 Fa), V0, Rlt_bool_true by lra. cbn [andb oassert rbind].
  destruct (add_stay b (b64_ofZ 1) Fb eq_refl F1 ltac:(rewrite V1, Rabs_pos_eq; lra)) as [Fc1 Vc1]. assert (Fo : fl (SFopp a) /\ val (SFopp a) = - val a) by now apply opp_ok. destruct Fo as [Fo Vo].
  assert (Sub : forall x, fl x -> val x = val b -> fl (SFsub prec64 emax64 x a) /\ val (SFsub prec64 emax64 x a) = val b).
  { intros x Fx Vx. assert (Q : SFsub prec64 emax64 x a = SFadd prec64 emax64 x (SFopp a)) by (destruct x as [sx|sx| |sx mx ex], a as [sa|sa| |sa ma ea]; try reflexivity; cbn; try (destruct sx, sa; reflexivity); unfold Z.sub; rewrite <- cond_Zopp_negb; reflexivity).
    rewrite Q. apply add_stay; auto. rewrite Vo, Rabs_Ropp, Rabs_pos_eq; lra. }
  change (nsub (Num := E) (nadd (Num := E) b (n1 (H := E))) a) with (SFsub prec64 emax64 (SFadd prec64 emax64 b (b64_ofZ 1)) a). destruct (Sub _ Fc1 Vc1) as [Fc Vc]. set (bc := SFsub prec64 emax64 _ a) in *.
  destruct small_ok as [Fsm Bsm]. destruct (abs_ok bc Fc) as [Fab Eab]. rewrite Vc, Rabs_pos_eq in Eab by lra. change (nleb (Num := E) (nabs (Num := E) bc) (cf_small (H := E))) with (SFleb (SFabs bc) (cf_small (H := E))).
  rewrite (leb_ok _ _ Fab Fsm), Rle_bool_false by (rewrite Eab; assert (1 < bpow radix2 1023) by (apply (bpow_lt radix2 0 1023); lia); lra).
  assert (Ib : 0 < / val b <= bpow radix2 (-1023)) by (split; [apply Rinv_0_lt_compat; lra|change (-1023)%Z with (Z.opp 1023); rewrite bpow_opp; apply Rinv_le; lra]). assert (B1 : 1 <= big) by (apply (bpow_le radix2 0 1023); lia). assert (L23 : bpow radix2 (-1023) <= 1) by (apply (bpow_le radix2 (-1023) 0); lia). assert (L22 : bpow radix2 (-1023) <= bpow radix2 (-1022)) by (apply bpow_le; lia).
  assert (Q0 : 0 <= val (b64_ofZ 1) / val bc <= bpow radix2 (-1023)) by (rewrite V1, Vc; unfold Rdiv; rewrite Rmult_1_l; lra). destruct (div_ok _ _ F1 Fc ltac:(lra) ltac:(rewrite Rabs_pos_eq; lra)) as [Fq Eq].
  assert (Bq : 0 <= val (SFdiv prec64 emax64 (b64_ofZ 1) bc) <= bpow radix2 (-1023)). { rewrite Eq. split; [apply rnd_nonneg; lra|]. rewrite <- (rnd_bpow (-1023)) by lia. apply rnd_mono. lra. }
  apply (forever fuel bc (b64_ofZ 0) (SFdiv prec64 emax64 (b64_ofZ 1) bc) (SFdiv prec64 emax64 (b64_ofZ 1) bc) (b64_ofZ 1) false); auto; try lra. rewrite V1. split; [lra|apply (bpow_le radix2 0 53); lia].
Qed.
End Loop.
