(** The continued fraction in doubles, when its first term overflows: proofs. *)
From Coq Require Import ZArith Reals Bool SpecFloat Lia Lra.
From Flocq Require Import Core IEEE754.BinarySingleNaN.
From Verif Require Import Base Scalar OrdLib RLib B64Lib B64Ops FloatOps ConstSpec RoundLib RoundProofs RSpec RoundProofs2 BallDouble SegDouble MiniballModel LitModel.
From Verif Require Import ProbModel ProbDoubleModel.
Open Scope R_scope.

Section Far.
Variables (m : libm) (e l : spec_float -> spec_float).
Let E : Num spec_float := B64 m.
Let T : Trans spec_float := Btrans e l.

(** Once the approximant is not a number it stays so, and the loop never ends. *)
Lemma add_nan x : SFadd prec64 emax64 S754_nan x = S754_nan. Proof. destruct x; reflexivity. Qed.
Lemma sub_nan x : SFsub prec64 emax64 S754_nan x = S754_nan. Proof. destruct x; reflexivity. Qed.
Lemma mul_nan_l x : SFmul prec64 emax64 S754_nan x = S754_nan. Proof. destruct x; reflexivity. Qed.
Lemma mul_nan_r x : SFmul prec64 emax64 x S754_nan = S754_nan. Proof. destruct x; reflexivity. Qed.
Lemma div_nan x : SFdiv prec64 emax64 S754_nan x = S754_nan. Proof. destruct x; reflexivity. Qed.
Lemma leb_nan x : SFleb x S754_nan = false. Proof. destruct x; reflexivity. Qed.
Lemma ltb_nan x : SFltb S754_nan x = false. Proof. destruct x; reflexivity. Qed.
Lemma cf_nan fuel : forall a bc al bl bn t z, cf_loop (H := E) (H0 := T) fuel a bc al bl S754_nan bn t z = None.
Proof.
  induction fuel as [|k IH]; intros a bc al bl bn t z; [reflexivity|]. cbn [cf_loop]. cbn [E B64 nadd nsub nmul ndiv nabs nleb nltb].
  rewrite mul_nan_r, add_nan. change (SFabs S754_nan) with S754_nan. rewrite mul_nan_l, leb_nan, div_nan, sub_nan. change (SFabs S754_nan) with S754_nan. rewrite ltb_nan, andb_false_r. apply IH.
Qed.
(** With an infinite argument the first step gives infinity times zero. *)
Lemma igamc_inf fuel : igamc_nop (H := E) (H0 := T) fuel (nhalf (H := E)) (S754_infinity false) = None.
Proof.
  unfold igamc_nop. match goal with |- rbind (Some (oassert ?b _)) _ = _ => replace b with true by (vm_compute; reflexivity) end. cbn [oassert rbind].
  match goal with |- (if ?b then _ else _) = _ => replace b with false by (vm_compute; reflexivity) end.
  destruct fuel as [|k]; [reflexivity|]. cbn [cf_loop].
  match goal with |- (if ?b then _ else _) = _ => replace b with false by (vm_compute; reflexivity) end.
  match goal with |- (if ?b then _ else _) = _ => replace b with false by (vm_compute; reflexivity) end.
  match goal with |- cf_loop _ _ _ _ _ ?x _ _ _ = _ => replace x with S754_nan by (vm_compute; reflexivity) end. apply cf_nan.
Qed.
(** A square that overflows. *)
Lemma square_overflow q : fl q -> bpow radix2 512 <= val q -> SFmul prec64 emax64 q q = S754_infinity false.
Proof.
  intros [Dq Fq] B. pose proof (bpow_gt_0 radix2 512) as P. pose proof (Bmult_correct prec64 emax64 _ _ mode_NE (SF2B q Dq) (SF2B q Dq)) as C. cbn [round_mode] in C. rewrite !B2R_SF2B in C. fold (val q) in C. fold (rnd (val q * val q)) in C.
  assert (S : bpow radix2 1024 <= val q * val q). { change 1024%Z with (512 + 512)%Z. rewrite bpow_plus. apply Rmult_le_compat; lra. }
  assert (R : bpow radix2 1024 <= rnd (val q * val q)). { rewrite <- (rnd_bpow 1024) by lia. now apply rnd_mono. }
  rewrite Rlt_bool_false in C by (change emax64 with 1024%Z; eapply Rle_trans; [exact R|apply Rle_abs]). rewrite xorb_nilpotent in C.
  pose proof (mul_B prec64 emax64 _ _ (SF2B q Dq) (SF2B q Dq)) as M. rewrite !B2SF_SF2B in M. rewrite M, C. reflexivity.
Qed.
Theorem far_never mu s x : fl mu -> fl s -> fl x -> val s <> 0 -> Rabs (val x - val mu) <= big / 2 -> bpow radix2 513 <= (val x - val mu) / val s <= big / 2 ->
  forall fuel, gaussian_conditional (H := E) (H0 := T) fuel mu s x = None.
Proof.
  intros Fm Fs Fx S0 Bd Bq fuel. pose proof u64_pos as [U0 U1]. pose proof big_pos as BP. pose proof u_tiny as U. assert (U' : u64 <= 1 / 1000000000000) by lra.
  destruct (sub_ok x mu Fx Fm ltac:(lra)) as [F1 E1]. set (s1 := SFsub prec64 emax64 x mu) in *. set (d := (val x - val mu) / val s) in *. pose proof (bpow_gt_0 radix2 513) as P513.
  assert (N1 : Rabs (val s1 - (val x - val mu)) <= u64 * Rabs (val x - val mu)).
  { rewrite E1. unfold Rminus. apply rnd_add_err; [now apply fl_format|]. apply generic_format_opp. now apply fl_format. }
  assert (N2 : Rabs (val s1 / val s - d) <= u64 * d).
  { rewrite <- (Rabs_pos_eq d) at 2 by lra. unfold d. replace (val s1 / val s - (val x - val mu) / val s) with ((val s1 - (val x - val mu)) * / val s) by (field; auto). unfold Rdiv. rewrite !Rabs_mult. rewrite <- Rmult_assoc. apply Rmult_le_compat_r; [apply Rabs_pos|exact N1]. }
  assert (UD : u64 * d <= 1 / 1000000000000 * d) by (apply Rmult_le_compat_r; lra). assert (Qb : d / 2 <= val s1 / val s <= 2 * d) by (apply Rabs_le_inv in N2; lra).
  destruct (div_ok s1 s F1 Fs S0 ltac:(rewrite Rabs_pos_eq; lra)) as [Fq Eq]. set (q := SFdiv prec64 emax64 s1 s) in *.
  assert (E512 : bpow radix2 513 = 2 * bpow radix2 512) by (change 513%Z with (1 + 512)%Z; rewrite bpow_plus; reflexivity).
  assert (Q512 : bpow radix2 512 <= val q). { rewrite Eq. rewrite <- (rnd_bpow 512) by lia. apply rnd_mono. lra. }
  unfold gaussian_conditional. assert (F0 : fl (b64_ofZ 0)) by (split; vm_compute; reflexivity). assert (V0 : val (b64_ofZ 0) = 0) by reflexivity.
  assert (C1 : SFeqb s (b64_ofZ 0) = false) by (rewrite eqb_ok, V0 by auto; now apply Req_bool_false).
  change (neqb (Num := E) s (n0 (H := E))) with (SFeqb s (b64_ofZ 0)). rewrite C1. cbn [negb oassert rbind].
  change (ndiv (Num := E) (nsub (Num := E) x mu) s) with q. change (nmul (Num := E) q q) with (SFmul prec64 emax64 q q). rewrite (square_overflow q Fq Q512).
  set (c := nadd (Num := E) (nsqrt3 (Num := E)) _). assert (Fc : fl c) by (split; vm_compute; reflexivity). assert (Vc : val c <= 2).
  { let v := eval vm_compute in c in change c with v. unfold val, SF2R, Defs.F2R. cbn [Defs.Fnum Defs.Fexp SpecFloat.cond_Zopp]. change (bpow radix2 (-52)) with (/ IZR (2 ^ 52)). apply Rmult_le_reg_r with (IZR (2 ^ 52)); [apply IZR_lt; reflexivity|]. rewrite Rmult_assoc, Rinv_l, Rmult_1_r by (apply not_0_IZR; discriminate). rewrite <- mult_IZR. apply IZR_le. vm_compute. discriminate. }
  assert (B2 : 2 < bpow radix2 512) by (apply (bpow_lt radix2 1 512); lia). assert (C2 : SFltb q c = false) by (rewrite ltb_ok by auto; apply Rlt_bool_false; lra).
  change (nltb (Num := E) q c) with (SFltb q c). rewrite C2.
  change (ndiv (Num := E) (S754_infinity false) (n2 (H := E))) with (S754_infinity false). rewrite igamc_inf. reflexivity.
Qed.
End Far.
