(** The power series in doubles: proofs. *)
From Coq Require Import ZArith Reals Bool SpecFloat Lia Lra.
From Flocq Require Import Core IEEE754.BinarySingleNaN.
From Verif Require Import Base Scalar OrdLib RLib B64Lib B64Ops FloatOps ConstSpec RoundLib RoundProofs RSpec RoundProofs2 SegDouble MiniballModel LitModel.
From Verif Require Import ProbModel ProbDoubleModel.
Open Scope R_scope.

Lemma rnd_whole z : (Z.abs z <= 2 ^ 53)%Z -> rnd (IZR z) = IZR z.
Proof.
  intros B. rewrite rnd_FLT. apply round_generic; [typeclasses eauto|]. destruct (Z.eq_dec (Z.abs z) (2 ^ 53)) as [E|N].
  - assert (C : (z = 2 ^ 53 \/ z = - 2 ^ 53)%Z) by lia. destruct C as [-> | ->]; [|rewrite opp_IZR; apply generic_format_opp]; change (IZR (2 ^ 53)) with (bpow radix2 53); apply generic_format_FLT_bpow; [reflexivity|lia|reflexivity|lia].
  - apply generic_format_FLT. exists (Float radix2 z 0); [unfold F2R; cbn; ring|cbn [Fnum]; change (radix_val radix2 ^ 53)%Z with (2 ^ 53)%Z; lia|cbn; lia].
Qed.
Lemma ofZ_whole z : (Z.abs z <= 2 ^ 53)%Z -> fl (b64_ofZ z) /\ val (b64_ofZ z) = IZR z.
Proof.
  intros B. assert (Q : Rabs (rnd (IZR z)) < bpow radix2 1024). { rewrite rnd_whole by auto. rewrite <- abs_IZR. apply Rle_lt_trans with (IZR (2 ^ 53)); [now apply IZR_le|]. change (IZR (2 ^ 53)) with (bpow radix2 53). apply bpow_lt. lia. }
  destruct (ofZ_correct prec64 emax64 ltac:(reflexivity) ltac:(reflexivity) z Q) as (V & F & E). split; [split; auto|]. change (val (b64_ofZ z) = rnd (IZR z)) in E. now rewrite E, rnd_whole.
Qed.

Section Series.
Variables (m : libm) (e l : spec_float -> spec_float).
Let E : Num spec_float := B64 m.
Let T : Trans spec_float := Btrans e l.
Variable z : spec_float.
Hypotheses (Fz : fl z) (Hz : 0 < val z).
(** The state of the loop: a term between 0 and t, a whole divisor D not below the argument, and a sum between 1 and S. *)
Definition state (t : R) (D S : Z) (term d ans : spec_float) : Prop :=
  fl term /\ 0 <= val term <= t /\ fl d /\ val d = IZR D /\ (1 <= D <= 2 ^ 40)%Z /\ fl ans /\ 1 <= val ans <= IZR S /\ (1 <= S <= 2 ^ 40)%Z.
Lemma ulp_ok : fl (SFldexp prec64 emax64 (b64_ofZ 1) (-52)) /\ val (SFldexp prec64 emax64 (b64_ofZ 1) (-52)) = bpow radix2 (-52).
Proof. split; [split; vm_compute; reflexivity|]. let v := eval vm_compute in (SFldexp prec64 emax64 (b64_ofZ 1) (-52)) in change (SFldexp prec64 emax64 (b64_ofZ 1) (-52)) with v. unfold val, SF2R, F2R. cbn [Fnum Fexp SpecFloat.cond_Zopp]. change (-52)%Z with (52 + -104)%Z. rewrite bpow_plus. reflexivity. Qed.
Lemma quotient_ok t D S term d ans : state t D S term d ans -> t <= 1 -> let c := SFabs (SFdiv prec64 emax64 term ans) in fl c /\ val c = rnd (val term / val ans) /\ 0 <= val term / val ans <= val term.
Proof.
  intros (F1 & B1 & F2 & E2 & B2 & F3 & B3 & B4) Ht c. assert (Q : 0 <= val term / val ans <= val term).
  { assert (I : 0 < / val ans <= 1) by (split; [apply Rinv_0_lt_compat; lra|rewrite <- Rinv_1; apply Rinv_le; lra]). unfold Rdiv. split; [apply Rmult_le_pos; lra|]. rewrite <- (Rmult_1_r (val term)) at 2. apply Rmult_le_compat_l; lra. }
  assert (B : 1 <= big) by (apply (bpow_le radix2 0 1023); lia). destruct (div_ok term ans F1 F3 ltac:(lra) ltac:(rewrite Rabs_pos_eq; lra)) as [Fq Eq]. destruct (abs_ok _ Fq) as [Fa Ea]. split; [exact Fa|]. split; [|exact Q]. unfold c. rewrite Ea, Eq. apply Rabs_pos_eq, rnd_nonneg. lra.
Qed.
(** One step: with the divisor at least z the term does not grow, with twice that it is at least halved. *)
Lemma step t D S term d ans : state t D S term d ans -> t <= 1 -> val z <= IZR (D + 1) -> (D + 1 <= 2 ^ 40)%Z -> (S + 1 <= 2 ^ 40)%Z ->
  let d' := SFadd prec64 emax64 d (b64_ofZ 1) in let term' := SFmul prec64 emax64 term (SFdiv prec64 emax64 z d') in let ans' := SFadd prec64 emax64 ans term' in
  state t (D + 1) (S + 1) term' d' ans' /\ (forall k, (-1000 <= k)%Z -> t = bpow radix2 k -> 2 * val z <= IZR (D + 1) -> state (bpow radix2 (k - 1)) (D + 1) (S + 1) term' d' ans').
Proof.
  intros (F1 & B1 & F2 & E2 & B2 & F3 & B3 & B4) Ht Hd HD HS d' term' ans'. destruct (ofZ_whole 1 ltac:(lia)) as [Fo Eo].
  assert (Big : IZR (2 ^ 53) <= big) by (change (IZR (2 ^ 53)) with (bpow radix2 53); apply bpow_le; lia). assert (Le : forall k, (k <= 2 ^ 40)%Z -> IZR k <= big) by (intros k Hk; eapply Rle_trans; [apply IZR_le|exact Big]; lia).
  assert (Bd : Rabs (val d + val (b64_ofZ 1)) <= big). { rewrite E2, Eo, <- plus_IZR. rewrite Rabs_pos_eq by (apply IZR_le; lia). apply Le. lia. }
  destruct (add_ok d (b64_ofZ 1) F2 Fo Bd) as [Fd Ed]. fold d' in Fd, Ed. rewrite E2, Eo, <- plus_IZR, rnd_whole in Ed by lia.
  assert (Dp : 1 <= IZR (D + 1)) by (apply IZR_le; lia). assert (Qr : 0 <= val z / val d' <= 1). { rewrite Ed. split; [apply Rmult_le_pos; [lra|left; apply Rinv_0_lt_compat; lra]|]. apply Rmult_le_reg_r with (IZR (D + 1)); [lra|]. unfold Rdiv. rewrite Rmult_assoc, Rinv_l, Rmult_1_r by lra. lra. }
  assert (B1' : 1 <= big) by (apply (bpow_le radix2 0 1023); lia). destruct (div_ok z d' Fz Fd ltac:(rewrite Ed; lra) ltac:(rewrite Rabs_pos_eq; lra)) as [Fq Eq]. set (q := SFdiv prec64 emax64 z d') in *.
  assert (R1 : rnd 1 = 1) by (apply (rnd_whole 1); lia). assert (Qv : 0 <= val q <= 1). { rewrite Eq. split; [apply rnd_nonneg; lra|]. rewrite <- R1. apply rnd_mono. lra. }
  assert (Pq : 0 <= val term * val q <= val term). { split; [apply Rmult_le_pos; lra|]. rewrite <- (Rmult_1_r (val term)) at 2. apply Rmult_le_compat_l; lra. }
  destruct (mul_ok term q F1 Fq ltac:(rewrite Rabs_pos_eq; lra)) as [Ft Et]. fold term' in Ft, Et. assert (Tv : 0 <= val term' <= val term). { rewrite Et. split; [apply rnd_nonneg; lra|]. apply Rle_trans with (rnd (val term)); [apply rnd_mono; lra|right; now apply rnd_idem]. }
  assert (SB : val ans + val term' <= IZR (S + 1)) by (rewrite plus_IZR; lra).
  destruct (add_ok ans term' F3 Ft ltac:(rewrite Rabs_pos_eq by lra; eapply Rle_trans; [exact SB|apply Le; lia])) as [Fa Ea]. fold ans' in Fa, Ea.
  assert (Av : 1 <= val ans' <= IZR (S + 1)). { rewrite Ea. split; [rewrite <- R1 at 1; apply rnd_mono; lra|]. rewrite <- (rnd_whole (S + 1)) by lia. now apply rnd_mono. }
  split.
  - refine (conj Ft (conj (conj _ _) (conj Fd (conj Ed (conj (conj _ _) (conj Fa (conj Av (conj _ _))))))));  first [lra|lia].
  - intros k Hk Ek H2. assert (Hh : val z / val d' <= bpow radix2 (-1)). { rewrite Ed. change (bpow radix2 (-1)) with (/ 2). apply Rmult_le_reg_r with (IZR (D + 1)); [lra|]. unfold Rdiv. rewrite Rmult_assoc, Rinv_l, Rmult_1_r by lra. lra. }
    assert (Qh : val q <= bpow radix2 (-1)). { rewrite Eq, <- (rnd_bpow (-1)) by lia. now apply rnd_mono. }
    assert (Th : val term' <= bpow radix2 (k - 1)). { rewrite Et, <- (rnd_bpow (k - 1)) by lia. apply rnd_mono. replace (k - 1)%Z with (k + -1)%Z by lia. rewrite bpow_plus. apply Rmult_le_compat; lra. }
    refine (conj Ft (conj (conj _ _) (conj Fd (conj Ed (conj (conj _ _) (conj Fa (conj Av (conj _ _))))))));  first [lra|lia].
Qed.
(** A term of at most half the tolerance ends the loop. *)
Lemma stop fuel D S term d ans : state (bpow radix2 (-53)) D S term d ans -> exists r, power_series (H := E) (H0 := T) (Datatypes.S fuel) z term d ans = Some (Ret r) /\ fl r /\ 1 <= val r <= IZR S.
Proof.
  intros St. assert (H1 : bpow radix2 (-53) <= 1) by (apply (bpow_le radix2 (-53) 0); lia). destruct (quotient_ok _ _ _ _ _ _ St H1) as (Fc & Ec & Bc). destruct ulp_ok as [Fu Eu]. destruct St as (F1 & B1 & F2 & E2 & B2 & F3 & B3 & B4).
  exists ans. split; [|auto]. cbn [power_series]. change (nltb (Num := E) (tulp (Trans := T)) (nabs (Num := E) (ndiv (Num := E) term ans))) with (SFltb (SFldexp prec64 emax64 (b64_ofZ 1) (-52)) (SFabs (SFdiv prec64 emax64 term ans))).
  rewrite (ltb_ok _ _ Fu Fc), Rlt_bool_false; [reflexivity|]. rewrite Ec, Eu. apply Rle_trans with (bpow radix2 (-53)); [|apply bpow_le; lia]. rewrite <- (rnd_bpow (-53)) by lia. apply rnd_mono. lra.
Qed.
Lemma unfold_series k term d ans : power_series (H := E) (H0 := T) (S k) z term d ans =
  if SFltb (SFldexp prec64 emax64 (b64_ofZ 1) (-52)) (SFabs (SFdiv prec64 emax64 term ans)) then
    let d' := SFadd prec64 emax64 d (b64_ofZ 1) in let term' := SFmul prec64 emax64 term (SFdiv prec64 emax64 z d') in power_series (H := E) (H0 := T) k z term' d' (SFadd prec64 emax64 ans term')
  else Some (Ret ans).
Proof. reflexivity. Qed.
Lemma shrink j : forall fuel D S term d ans, (j < fuel)%nat -> state (bpow radix2 (Z.of_nat j - 53)) D S term d ans -> (j <= 53)%nat -> 2 * val z <= IZR (D + 1) -> (D + Z.of_nat j + 1 <= 2 ^ 40)%Z -> (S + Z.of_nat j + 1 <= 2 ^ 40)%Z ->
  exists r, power_series (H := E) (H0 := T) fuel z term d ans = Some (Ret r) /\ fl r /\ 1 <= val r <= IZR (S + Z.of_nat j).
Proof.
  induction j as [|j IH]; intros fuel D S term d ans Hf St Hj H2 HD HS; (destruct fuel as [|fuel]; [lia|]).
  - destruct (stop fuel D S term d ans St) as (r & Er & Fr & Br). exists r. rewrite Z.add_0_r. auto.
  - rewrite unfold_series. destruct (SFltb _ _).
    + assert (H1 : bpow radix2 (Z.of_nat (Datatypes.S j) - 53) <= 1) by (apply (bpow_le radix2 _ 0); lia).
      destruct (step _ _ _ _ _ _ St H1 ltac:(lra) ltac:(lia) ltac:(lia)) as [_ St']. specialize (St' (Z.of_nat (Datatypes.S j) - 53)%Z ltac:(lia) eq_refl H2).
      replace (Z.of_nat (Datatypes.S j) - 53 - 1)%Z with (Z.of_nat j - 53)%Z in St' by lia. destruct (IH fuel _ _ _ _ _ ltac:(lia) St' ltac:(lia) ltac:(rewrite !plus_IZR in *; lra) ltac:(lia) ltac:(lia)) as (r & Er & Fr & Br).
      exists r. split; [exact Er|]. split; [exact Fr|]. replace (S + Z.of_nat (Datatypes.S j))%Z with (S + 1 + Z.of_nat j)%Z by lia. exact Br.
    + destruct St as (F1 & B1 & F2 & E2 & B2 & F3 & B3 & B4). exists ans. split; [reflexivity|]. split; [exact F3|]. split; [lra|]. apply Rle_trans with (IZR S); [lra|apply IZR_le; lia].
Qed.
Lemma series_ends i : forall fuel D S term d ans, (i + 53 < fuel)%nat -> state 1 D S term d ans -> val z <= IZR (D + 1) -> 2 * val z <= IZR (D + Z.of_nat i + 1) -> (D + Z.of_nat i + 60 <= 2 ^ 40)%Z -> (S + Z.of_nat i + 60 <= 2 ^ 40)%Z ->
  exists r, power_series (H := E) (H0 := T) fuel z term d ans = Some (Ret r) /\ fl r /\ 1 <= val r <= IZR (S + Z.of_nat i + 53).
Proof.
  induction i as [|i IH]; intros fuel D S term d ans Hf St H1 H2 HD HS.
  - rewrite !Z.add_0_r in *. change 53%Z with (Z.of_nat 53). apply (shrink 53 fuel D S term d ans); auto; lia.
  - destruct fuel as [|fuel]; [lia|]. rewrite unfold_series. destruct (SFltb _ _).
    + destruct (step _ _ _ _ _ _ St (Rle_refl 1) H1 ltac:(lia) ltac:(lia)) as [St' _]. destruct (IH fuel _ _ _ _ _ ltac:(lia) St' ltac:(rewrite !plus_IZR in *; lra)) as (r & Er & Fr & Br); try lia.
      { replace (D + 1 + Z.of_nat i + 1)%Z with (D + Z.of_nat (Datatypes.S i) + 1)%Z by lia. exact H2. }
      exists r. split; [exact Er|]. split; [exact Fr|]. replace (S + Z.of_nat (Datatypes.S i) + 53)%Z with (S + 1 + Z.of_nat i + 53)%Z by lia. exact Br.
    + destruct St as (F1 & B1 & F2 & E2 & B2 & F3 & B3 & B4). exists ans. split; [reflexivity|]. split; [exact F3|]. split; [lra|]. apply Rle_trans with (IZR S); [lra|apply IZR_le; lia].
Qed.
End Series.

Theorem conditional_ends m (e l : spec_float -> spec_float) mu n : fl mu -> 0 < val mu <= IZR n + 1 -> (1 <= n < 2 ^ 32 - 1)%Z ->
  forall fuel, (Z.to_nat n + 60 <= fuel)%nat -> exists h, poisson_conditional (H := B64 m) (H0 := Btrans e l) fuel mu n = Some (Ret h) /\ fl h /\ 0 < val h <= 1.
Proof.
  intros Fm Bm Hn fuel Hf. destruct (ofZ_whole 0 ltac:(lia)) as [F0 V0]. destruct (ofZ_whole 1 ltac:(lia)) as [F1 V1]. destruct (ofZ_whole n ltac:(lia)) as [Fn Vn]. destruct (ofZ_whole (n + 1) ltac:(lia)) as [Fp Vp].
  unfold poisson_conditional.
  change (nleb (Num := B64 m) (n0 (H := B64 m)) mu) with (SFleb (b64_ofZ 0) mu). rewrite (leb_ok _ _ F0 Fm), V0, Rle_bool_true by lra. cbn [oassert rbind].
  change (neqb (Num := B64 m) mu (n0 (H := B64 m))) with (SFeqb mu (b64_ofZ 0)). rewrite (eqb_ok _ _ Fm F0), V0, Req_bool_false by lra. destruct (Z.eqb_spec n 0) as [Zn|Zn]; [lia|].
  assert (W : uwrap (n + 1) = (n + 1)%Z) by (unfold uwrap; apply Z.mod_small; lia). rewrite W. change (nltb (Num := B64 m) (nofZ (Num := B64 m) (n + 1)) mu) with (SFltb (b64_ofZ (n + 1)) mu). rewrite (ltb_ok _ _ Fp Fm), Vp, Rlt_bool_false by (rewrite plus_IZR; lra).
  unfold igam_nop. change (nadd (Num := B64 m) (nofZ (Num := B64 m) n) (n1 (H := B64 m))) with (SFadd prec64 emax64 (b64_ofZ n) (b64_ofZ 1)).
  assert (Bg : Rabs (val (b64_ofZ n) + val (b64_ofZ 1)) <= big). { rewrite Vn, V1, <- plus_IZR, Rabs_pos_eq by (apply IZR_le; lia). apply Rle_trans with (IZR (2 ^ 53)); [apply IZR_le; lia|]. change (IZR (2 ^ 53)) with (bpow radix2 53). apply bpow_le. lia. }
  destruct (add_ok _ _ Fn F1 Bg) as [Fs Es]. rewrite Vn, V1, <- plus_IZR, rnd_whole in Es by lia.
  change (nleb (Num := B64 m) mu (SFadd prec64 emax64 (b64_ofZ n) (b64_ofZ 1))) with (SFleb mu (SFadd prec64 emax64 (b64_ofZ n) (b64_ofZ 1))). rewrite (leb_ok _ _ Fm Fs), Es, Rle_bool_true by (rewrite plus_IZR; lra).
  change (nltb (Num := B64 m) (n0 (H := B64 m)) mu) with (SFltb (b64_ofZ 0) mu). rewrite (ltb_ok _ _ F0 Fm), V0, Rlt_bool_true by lra.
  change (nltb (Num := B64 m) (n0 (H := B64 m)) (nofZ (Num := B64 m) n)) with (SFltb (b64_ofZ 0) (b64_ofZ n)). rewrite (ltb_ok _ _ F0 Fn), V0, Vn, Rlt_bool_true by (apply IZR_lt; lia). cbn [andb oassert rbind].
  change (n1 (H := B64 m)) with (b64_ofZ 1). change (nofZ (Num := B64 m) n) with (b64_ofZ n).
  assert (St : state 1 n 1 (b64_ofZ 1) (b64_ofZ n) (b64_ofZ 1)) by (refine (conj F1 (conj _ (conj Fn (conj Vn (conj (conj _ _) (conj F1 (conj _ (conj _ _)))))))); try rewrite V1; first [lra|lia]).
  destruct (series_ends m e l mu Fm ltac:(lra) (S (Z.to_nat n)) fuel n 1 _ _ _ ltac:(lia) St ltac:(rewrite plus_IZR; lra) ltac:(rewrite Nat2Z.inj_succ, Z2Nat.id by lia; unfold Z.succ; rewrite !plus_IZR; lra) ltac:(lia) ltac:(lia)) as (r & Er & Fr & Br).
  rewrite Er. cbn [rbind]. change (ndiv (Num := B64 m) (b64_ofZ 1) r) with (SFdiv prec64 emax64 (b64_ofZ 1) r).
  assert (Rb : val r <= bpow radix2 40). { eapply Rle_trans; [apply Br|]. change (bpow radix2 40) with (IZR (2 ^ 40)). apply IZR_le. lia. }
  assert (Q : bpow radix2 (-40) <= val (b64_ofZ 1) / val r <= 1). { rewrite V1. unfold Rdiv. rewrite Rmult_1_l. split; [change (-40)%Z with (Z.opp 40); rewrite bpow_opp; apply Rinv_le; lra|rewrite <- Rinv_1; apply Rinv_le; lra]. }
  pose proof (bpow_gt_0 radix2 (-40)) as P40. assert (B1 : 1 <= big) by (apply (bpow_le radix2 0 1023); lia). destruct (div_ok (b64_ofZ 1) r F1 Fr ltac:(lra) ltac:(rewrite Rabs_pos_eq; lra)) as [Fh Eh].
  exists (SFdiv prec64 emax64 (b64_ofZ 1) r). split; [reflexivity|]. split; [exact Fh|]. rewrite Eh. split.
  - apply Rlt_le_trans with (rnd (bpow radix2 (-40))); [rewrite rnd_bpow by lia; exact P40|]. apply rnd_mono. lra.
  - rewrite <- (rnd_whole 1) by lia. apply rnd_mono. lra.
Qed.
