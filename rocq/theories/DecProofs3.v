(** Decimal texts: 17 digits determine a double, 15 digits survive being read and written again. *)
From Coq Require Import ZArith NArith Bool Ascii String List SpecFloat Reals Lia Lra.
From Flocq Require Import Core IEEE754.BinarySingleNaN.
From Verif Require Import Base Scalar B64Lib B64Ops RoundLib StreamModel StreamSpec DecModel DecProofs DecProofs2.
Import ListNotations.
Local Open Scope R_scope.

(** ** Doubles are far apart *)
Notation fmt := (generic_format radix2 (FLT_exp (-1074) 53)).
Notation cx := (cexp radix2 (FLT_exp (-1074) 53)).
Lemma multiple z e : fmt z -> (e <= cx z)%Z -> exists k, z = IZR k * bpow radix2 e.
Proof.
  intros F L. rewrite F. unfold F2R. cbn [Fnum Fexp]. set (m := Ztrunc _). exists (m * 2 ^ (cx z - e))%Z.
  change (2 ^ (cx z - e))%Z with (Zpower radix2 (cx z - e)). rewrite mult_IZR, IZR_Zpower, Rmult_assoc, <- bpow_plus by lia. f_equal. f_equal. lia.
Qed.
Lemma cx_above z : z <> 0 -> Rabs z < bpow radix2 (cx z + 53).
Proof. intros N. unfold cexp, FLT_exp. eapply Rlt_le_trans; [apply bpow_mag_gt|]. apply bpow_le. lia. Qed.
Lemma cx_below z : z <> 0 -> (-1074 < cx z)%Z -> bpow radix2 (cx z + 52) <= Rabs z.
Proof. intros N L. unfold cexp, FLT_exp in *. eapply Rle_trans; [|apply bpow_mag_le; exact N]. apply bpow_le. lia. Qed.
Lemma gap_mult x z e : (exists j, x = IZR j * bpow radix2 e) -> (exists k, z = IZR k * bpow radix2 e) -> x < z -> x + bpow radix2 e <= z.
Proof.
  intros [j ->] [k ->] L. pose proof (bpow_gt_0 radix2 e) as B. apply Rmult_lt_reg_r in L; auto. apply lt_IZR in L. assert (j + 1 <= k)%Z as K by lia. apply IZR_le in K. rewrite plus_IZR in K.
  pose proof (Rmult_le_compat_r _ _ _ (Rlt_le _ _ B) K). lra.
Qed.
Lemma u64_split e : bpow radix2 (e + 53) * u64 = bpow radix2 e.
Proof. unfold u64. rewrite <- bpow_plus. f_equal. lia. Qed.
Lemma apart x z : fmt x -> fmt z -> 0 < x -> z <> x -> x * u64 <= Rabs (z - x).
Proof.
  intros Fx Fz Px N. pose proof u64_pos as [U0 U1]. assert (Ux : x * u64 <= bpow radix2 (cx x)).
  { pose proof (cx_above x ltac:(lra)) as C. rewrite Rabs_pos_eq in C by lra. rewrite <- u64_split. apply Rmult_le_compat_r; lra. }
  destruct (Rlt_le_dec x z) as [L|L].
  - rewrite Rabs_pos_eq by lra. assert (Cm : (cx x <= cx z)%Z). { unfold cexp, FLT_exp. pose proof (mag_le radix2 x z Px ltac:(lra)). lia. }
    pose proof (gap_mult x z (cx x) (multiple x (cx x) Fx (Z.le_refl _)) (multiple z _ Fz Cm) L). lra.
  - assert (L' : z < x) by lra. rewrite Rabs_left by lra. destruct (Rle_lt_dec z 0) as [Z|Z].
    + assert (x * u64 <= x * 1) by (apply Rmult_le_compat_l; lra). lra.
    + assert (Cm : (cx z <= cx x)%Z). { unfold cexp, FLT_exp. pose proof (mag_le radix2 z x Z ltac:(lra)). lia. }
      destruct (Z.eq_dec (cx z) (cx x)) as [E|E].
      * pose proof (gap_mult z x (cx x) (multiple z (cx x) Fz ltac:(lia)) (multiple x (cx x) Fx (Z.le_refl _)) L'). lra.
      * assert (X1 : bpow radix2 (cx z + 53) <= x). { pose proof (cx_below x ltac:(lra)) as C. rewrite Rabs_pos_eq in C by lra. eapply Rle_trans; [|apply C]; [apply bpow_le; lia|]. assert (-1074 <= cx z)%Z by (unfold cexp, FLT_exp; lia). lia. }
        assert (Z1 : z + bpow radix2 (cx z) <= bpow radix2 (cx z + 53)).
        { apply gap_mult; [apply multiple; auto; lia| |].
          - exists (2 ^ 53)%Z. change (2 ^ 53)%Z with (Zpower radix2 53). rewrite IZR_Zpower, <- bpow_plus by lia. f_equal. lia.
          - pose proof (cx_above z ltac:(lra)) as C. now rewrite Rabs_pos_eq in C by lra. }
        rewrite <- (u64_split (cx z)) in Z1. assert (bpow radix2 (cx z + 53) * (1 - u64) <= x * (1 - u64)) by (apply Rmult_le_compat_r; lra). lra.
Qed.
Lemma close_rnd x y : fmt x -> 0 < x -> Rabs (y - x) < x * u64 / 2 -> rnd y = x.
Proof.
  intros F P C. destruct (Req_dec (rnd y) x) as [E|E]; auto. exfalso. assert (Fr : fmt (rnd y)) by (rewrite rnd_FLT; apply generic_format_round; [apply FLT_exp_valid; reflexivity|auto with typeclass_instances]).
  pose proof (apart x (rnd y) F Fr P E) as A. assert (Nr : Rabs (rnd y - y) <= Rabs (x - y)).
  { rewrite rnd_FLT. destruct (round_N_pt radix2 (FLT_exp (-1074) 53) (fun z => negb (Z.even z)) y) as [_ H]. apply H, F. }
  rewrite (Rabs_minus_sym x y) in Nr. replace (rnd y - x) with ((rnd y - y) + (y - x)) in A by ring. pose proof (Rabs_triang (rnd y - y) (y - x)). lra.
Qed.

(** ** One double *)
Lemma finite_value s m e : val (S754_finite s m e) = (if s then -1 else 1) * (IZR (Zpos m * 2 ^ Z.max e 0) / IZR (2 ^ Z.max (- e) 0)).
Proof.
  unfold val, SF2R, F2R. cbn [Fnum Fexp]. rewrite mult_IZR. change 2%Z with (radix_val radix2). rewrite !IZR_Zpower by lia.
  destruct (Z.le_gt_cases 0 e).
  - rewrite Z.max_l, Z.max_r by lia. cbn [bpow]. destruct s; cbn [cond_Zopp]; [change (Z.neg m) with (- Z.pos m)%Z; rewrite opp_IZR|]; field.
  - rewrite Z.max_r, Z.max_l by lia. rewrite bpow_opp. pose proof (bpow_gt_0 radix2 e). cbn [bpow]. destruct s; cbn [cond_Zopp]; [change (Z.neg m) with (- Z.pos m)%Z; rewrite opp_IZR|]; field; lra.
Qed.
Lemma same_double x y : fl x -> fl y -> val x = val y -> sign_SF x = sign_SF y -> x = y.
Proof.
  intros [Dx Fx] [Dy Fy] V S. rewrite <- (toB_SF x Dx), <- (toB_SF y Dy). f_equal. apply B2R_Bsign_inj.
  - now rewrite finite_toB.
  - now rewrite finite_toB.
  - now rewrite !val_toB.
  - unfold toB. now rewrite !Bsign_SF2B.
Qed.

Definition mag_of (x : spec_float) : R := Rabs (val x).
Lemma print_scan prec x : fl x -> val x <> 0 -> let P := Nat.max prec 1 in
  exists d k x0, let y := IZR d * p10 (k - Z.of_nat P + 1) in
  print_double prec x = minus (sign_SF x) (layout P d k) /\ (10 ^ (Z.of_nat P - 1) <= d < 10 ^ Z.of_nat P)%Z /\
  p10 x0 <= mag_of x < p10 (x0 + 1) /\ Rabs (y - mag_of x) <= / 2 * p10 (x0 - Z.of_nat P + 1) /\
  (Rabs (rnd y) < bpow radix2 1024 -> exists z, (forall pre rest, blank pre -> plain rest -> scan_double (pre ++ print_double prec x ++ rest) = Some (z, rest)) /\ fl z /\ val z = (if sign_SF x then - rnd y else rnd y) /\ sign_SF z = sign_SF x).
Proof.
  intros F N P. destruct x as [s|s| |s m e]; try (exfalso; apply N; reflexivity); try (destruct F as [_ F]; discriminate F).
  assert (A : (0 < Z.pos m * 2 ^ Z.max e 0)%Z) by (apply Z.mul_pos_pos; [lia|apply Z.pow_pos_nonneg; lia]). assert (Bb : (0 < 2 ^ Z.max (- e) 0)%Z) by (apply Z.pow_pos_nonneg; lia).
  destruct (to_decimal_ok P _ _ ltac:(unfold P; lia) A Bb) as (d & k & x0 & T & D & X & C).
  assert (M : mag_of (S754_finite s m e) = IZR (Z.pos m * 2 ^ Z.max e 0) / IZR (2 ^ Z.max (- e) 0)).
  { unfold mag_of. rewrite finite_value. apply IZR_lt in A, Bb. assert (0 < IZR (Z.pos m * 2 ^ Z.max e 0) / IZR (2 ^ Z.max (- e) 0)) by (apply Rdiv_lt_0_compat; auto). destruct s; [rewrite Rabs_left; lra|rewrite Rabs_pos_eq; lra]. }
  exists d, k, x0. cbv zeta. rewrite M. assert (Pr : print_double prec (S754_finite s m e) = minus s (layout P d k)). { unfold print_double. fold P. rewrite T. reflexivity. }
  split; [exact Pr|]. split; auto. split; auto. split; auto. intros O. rewrite Pr, layout_parts. pose proof (parts_value P d k ltac:(unfold P; lia) ltac:(lia)) as V.
  destruct (parts P d k) as [[w f] ex]. destruct V as (Nw & Dw & Df & V). unfold dvalue in V. rewrite <- V in O |- *.
  destruct (nearest_ok s (number (w ++ f)) (match ex with Some x => x | None => 0%Z end - Z.of_nat (length f))) as (z & Nz & Z1 & Z2 & Z3); auto.
  - assert (0 < IZR d). { apply IZR_lt. pose proof (Z.pow_pos_nonneg 10 (Z.of_nat P - 1) ltac:(lia) ltac:(unfold P; lia)). lia. }
    apply lt_IZR. pose proof (p10_pos (match ex with Some x => x | None => 0%Z end - Z.of_nat (length f))) as Q. apply Rmult_lt_reg_r with (1 := Q). rewrite Rmult_0_l, V. apply Rmult_lt_0_compat; auto. apply p10_pos.
  - exists z. split; auto. intros pre rest B Pl. rewrite (scan_parts s pre w f ex rest B Nw Dw Df Pl). unfold outcome_of. now rewrite Nz.
Qed.
Lemma sign_value x : fl x -> val x = if sign_SF x then - mag_of x else mag_of x.
Proof.
  intros [_ F]. unfold mag_of. destruct x as [s|s| |s m e]; try discriminate F; cbn [sign_SF].
  - unfold val, SF2R. rewrite Rabs_R0. destruct s; lra.
  - assert (V : 0 < IZR (Z.pos m * 2 ^ Z.max e 0) / IZR (2 ^ Z.max (- e) 0)) by (apply Rdiv_lt_0_compat; apply IZR_lt; [apply Z.mul_pos_pos; [lia|]|]; apply Z.pow_pos_nonneg; lia).
    rewrite finite_value. destruct s; [rewrite Rabs_left; lra|rewrite Rabs_pos_eq; lra].
Qed.
Lemma mag_format x : fl x -> fmt (mag_of x).
Proof. intros F. unfold mag_of. apply generic_format_abs, fl_format, F. Qed.
Lemma mag_max x : fl x -> mag_of x < bpow radix2 1024.
Proof. intros [D F]. unfold mag_of. rewrite <- (val_toB x D). apply (abs_B2R_lt_emax prec64 emax64). Qed.
Lemma scan_zero s pre rest : blank pre -> plain rest -> scan_double (pre ++ minus s (txt "0") ++ rest) = Some (S754_zero s, rest).
Proof.
  intros B Pl. pose proof (scan_parts s pre [0%Z] [] None rest B ltac:(discriminate) ltac:(repeat constructor; lia) ltac:(constructor) Pl) as S. exact S.
Qed.

(** ** Seventeen digits *)
Lemma p10_17 : p10 (-16) < u64.
Proof.
  unfold u64. change (-53)%Z with (Z.opp 53). change (-16)%Z with (Z.opp 16). rewrite p10_inv, bpow_opp. rewrite <- p10_IZR, <- (IZR_Zpower radix2 53) by lia.
  apply Rinv_lt_contravar; [rewrite <- mult_IZR|]; apply IZR_lt; vm_compute; reflexivity.
Qed.
Lemma exact_17 prec x pre rest : (17 <= prec)%nat -> fl x -> blank pre -> plain rest -> scan_double (pre ++ print_double prec x ++ rest) = Some (x, rest).
Proof.
  intros P F B Pl. destruct (Req_dec (val x) 0) as [Z|N].
  - destruct x as [s|s| |s m e]; try (destruct F as [_ F]; discriminate F); [exact (scan_zero s pre rest B Pl)|]. exfalso.
    rewrite finite_value in Z. assert (V : 0 < IZR (Zpos m * 2 ^ Z.max e 0) / IZR (2 ^ Z.max (- e) 0)) by (apply Rdiv_lt_0_compat; apply IZR_lt; [apply Z.mul_pos_pos; [lia|]|]; apply Z.pow_pos_nonneg; lia). destruct s; lra.
  - destruct (print_scan prec x F N) as (d & k & x0 & _ & D & X & C & S). set (y := IZR d * _) in *.
    assert (Mp : 0 < mag_of x) by (apply Rabs_pos_lt, N).
    assert (R : rnd y = mag_of x).
    { apply close_rnd; auto; [now apply mag_format|]. eapply Rle_lt_trans; [exact C|]. assert (p10 (x0 - Z.of_nat (Nat.max prec 1) + 1) <= p10 x0 * p10 (-16)) by (rewrite <- p10_plus; apply p10_le; lia).
      assert (p10 x0 * p10 (-16) <= mag_of x * p10 (-16)) by (apply Rmult_le_compat_r; [apply Rlt_le, p10_pos|lra]). pose proof (Rmult_lt_compat_l _ _ _ Mp p10_17). lra. }
    rewrite R in S. destruct S as (z & Sc & Z1 & Z2 & Z3).
    + rewrite Rabs_pos_eq by lra. now apply mag_max.
    + rewrite Sc by auto. f_equal. f_equal. apply same_double; auto. now rewrite Z2, (sign_value x F).
Qed.

(** ** Up to fifteen digits *)
Lemma p10_15 P : (P <= 15)%nat -> u64 * p10 (Z.of_nat P) < / 2.
Proof.
  intros L. assert (p10 (Z.of_nat P) <= p10 15) by (apply p10_le; lia). assert (u64 * p10 15 < / 2); [|pose proof u64_pos; assert (u64 * p10 (Z.of_nat P) <= u64 * p10 15) by (apply Rmult_le_compat_l; lra); lra].
  unfold u64. change (-53)%Z with (Z.opp 53). rewrite bpow_opp, <- p10_IZR, <- (IZR_Zpower radix2 53) by lia. change (10 ^ 15)%Z with 1000000000000000%Z. change (Zpower radix2 53) with 9007199254740992%Z. lra.
Qed.
Lemma reprint prec x : (prec <= 15)%nat -> fl x -> bpow radix2 (-1021) <= mag_of x <= bpow radix2 1022 ->
  exists z, (forall pre rest, blank pre -> plain rest -> scan_double (pre ++ print_double prec x ++ rest) = Some (z, rest)) /\ fl z /\ sign_SF z = sign_SF x /\
    Rabs (val z - val x) <= (/ 2 * p10 (1 - Z.of_nat (Nat.max prec 1)) + 2 * u64) * mag_of x /\ print_double prec z = print_double prec x.
Proof.
  intros P F [M1 M2]. pose proof (bpow_gt_0 radix2 (-1021)) as B1. assert (N : val x <> 0). { intros N. unfold mag_of in M1. rewrite N, Rabs_R0 in M1. lra. }
  destruct (print_scan prec x F N) as (d & k & x0 & Pr & D & X & C & S). set (Q := Nat.max prec 1) in *. set (y := IZR d * _) in *.
  assert (Q1 : (1 <= Q <= 15)%nat) by (unfold Q; lia). pose proof u64_pos as [U0 U1].
  assert (E : p10 (x0 - Z.of_nat Q + 1) <= p10 (1 - Z.of_nat Q) * mag_of x). { replace (x0 - Z.of_nat Q + 1)%Z with (1 - Z.of_nat Q + x0)%Z by lia. rewrite p10_plus. apply Rmult_le_compat_l; [apply Rlt_le, p10_pos|lra]. }
  assert (H10 : p10 (1 - Z.of_nat Q) <= 1) by (rewrite <- p10_0; apply p10_le; lia).
  assert (E2 : p10 (1 - Z.of_nat Q) * mag_of x <= 1 * mag_of x) by (apply Rmult_le_compat_r; lra).
  pose proof (Rabs_le_inv _ _ C) as [C1 C2]. assert (Y : mag_of x / 2 <= y <= 3 / 2 * mag_of x) by lra.
  assert (Yn : bpow radix2 (-1022) <= y). { replace (bpow radix2 (-1022)) with (bpow radix2 (-1021) / 2); [lra|]. change (-1021)%Z with (-1022 + 1)%Z. rewrite bpow_plus. change (bpow radix2 1) with 2. lra. }
  pose proof (bpow_gt_0 radix2 (-1022)) as B2. assert (R : Rabs (rnd y - y) <= u64 * y). { pose proof (rnd_rel_err y) as H. rewrite (Rabs_pos_eq y) in H by lra. now apply H. }
  pose proof (Rabs_le_inv _ _ R) as [R1 R2]. assert (Uy : u64 * y <= / 4 * y) by (apply Rmult_le_compat_r; lra).
  assert (Big : Rabs (rnd y) < bpow radix2 1024). { apply rnd_big. rewrite Rabs_pos_eq by lra. unfold big. change 1023%Z with (1022 + 1)%Z. rewrite bpow_plus. change (bpow radix2 1) with 2. lra. }
  destruct (S Big) as (z & Sc & Z1 & Z2 & Z3). exists z. split; auto. split; auto. split; auto. split.
  - rewrite (sign_value x F), Z2. assert (Rabs (rnd y - mag_of x) <= (/ 2 * p10 (1 - Z.of_nat Q) + 2 * u64) * mag_of x).
    { assert (u64 * y <= u64 * (3 / 2 * mag_of x)) by (apply Rmult_le_compat_l; lra). assert (0 <= u64 * mag_of x) by (apply Rmult_le_pos; lra). apply Rabs_le. lra. }
    destruct (sign_SF x); auto. replace (- rnd y - - mag_of x) with (- (rnd y - mag_of x)) by ring. now rewrite Rabs_Ropp.
  - rewrite Pr. assert (Mz : mag_of z = rnd y). { unfold mag_of. rewrite Z2. destruct (sign_SF x); rewrite ?Rabs_Ropp; apply Rabs_pos_eq; lra. }
    destruct z as [s|s| |s m e]; try (destruct Z1 as [_ Z1]; discriminate Z1).
    + exfalso. unfold mag_of, val, SF2R in Mz. rewrite Rabs_R0 in Mz. lra.
    + cbn [sign_SF] in Z3. subst s. assert (A : (0 < Z.pos m * 2 ^ Z.max e 0)%Z) by (apply Z.mul_pos_pos; [lia|apply Z.pow_pos_nonneg; lia]). assert (Bb : (0 < 2 ^ Z.max (- e) 0)%Z) by (apply Z.pow_pos_nonneg; lia).
      assert (V : IZR (Z.pos m * 2 ^ Z.max e 0) / IZR (2 ^ Z.max (- e) 0) = rnd y).
      { rewrite <- Mz. unfold mag_of. rewrite finite_value. apply IZR_lt in A, Bb. assert (0 < IZR (Z.pos m * 2 ^ Z.max e 0) / IZR (2 ^ Z.max (- e) 0)) by (apply Rdiv_lt_0_compat; auto). destruct (sign_SF x); [rewrite Rabs_left; lra|rewrite Rabs_pos_eq; lra]. }
      unfold print_double. fold Q. rewrite (to_decimal_unique Q _ _ d k u64); auto; try lia; try lra.
      * apply p10_15. lia.
      * rewrite V. exact R.
Qed.
