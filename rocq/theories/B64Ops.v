(** Rounding of the binary64 operations, by transfer from Flocq. *)
From Coq Require Import ZArith Reals Bool SpecFloat Lia Lra.
From Flocq Require Import Core IEEE754.BinarySingleNaN.
From Verif Require Import Scalar OrdLib RLib B64Lib.

Definition rnd (x : R) : R := round radix2 (SpecFloat.fexp prec64 emax64) ZnearestE x.

Lemma binary_normalize_equiv m e s :
  SpecFloat.binary_normalize prec64 emax64 m e s = B2SF (binary_normalize prec64 emax64 _ _ mode_NE m e s).
Proof. case m as [ | p | p]; simpl; auto; rewrite B2SF_SF2B; apply binary_round_equiv. Qed.

Lemma SFsub_B (x y : binary_float prec64 emax64) : SFsub prec64 emax64 (B2SF x) (B2SF y) = B2SF (Bminus mode_NE x y).
Proof.
  case x as [sx|sx| |sx mx ex Bx]; case y as [sy|sy| |sy my ey By]; [now (trivial || simpl; case Bool.eqb).. | ].
  simpl. unfold Zminus. rewrite <- cond_Zopp_negb. apply binary_normalize_equiv.
Qed.
Lemma SFadd_B (x y : binary_float prec64 emax64) : SFadd prec64 emax64 (B2SF x) (B2SF y) = B2SF (Bplus mode_NE x y).
Proof.
  case x as [sx|sx| |sx mx ex Bx]; case y as [sy|sy| |sy my ey By]; [now (trivial || simpl; case Bool.eqb).. | ].
  apply binary_normalize_equiv.
Qed.

Lemma double_B (x : binary_float prec64 emax64) : is_double (B2SF x).
Proof. apply valid_binary_B2SF. Qed.

Lemma SFsub_correct x y : is_double x -> is_double y -> finite x -> finite y ->
  is_double (SFsub prec64 emax64 x y) /\
  if Rlt_bool (Rabs (rnd (val x - val y))) (bpow radix2 1024)
  then val (SFsub prec64 emax64 x y) = rnd (val x - val y) /\ finite (SFsub prec64 emax64 x y)
  else exists s, SFsub prec64 emax64 x y = S754_infinity s /\ (if s then val x <= 0 <= val y else val y <= 0 <= val x)%R.
Proof.
  intros Hx Hy Fx Fy.
  pose proof (Bminus_correct _ _ _ _ mode_NE (toB x Hx) (toB y Hy)) as P.
  rewrite !finite_toB in P. specialize (P Fx Fy). rewrite !val_toB in P. cbn [round_mode] in P.
  pose proof (SFsub_B (toB x Hx) (toB y Hy)) as E. rewrite !toB_SF in E. rewrite E.
  split; [apply double_B|]. fold (rnd (val x - val y)) in P. change (bpow radix2 emax64) with (bpow radix2 1024) in P.
  destruct (Rlt_bool (Rabs (rnd (val x - val y))) (bpow radix2 1024)).
  - destruct P as (P1 & P2 & _). rewrite val_B. split; auto. unfold finite. rewrite <- P2. apply is_finite_SF_B2SF.
  - destruct P as (P1 & P2). rewrite P1. exists (Bsign (toB x Hx)). split; [reflexivity|].
    rewrite <- (val_toB x Hx), <- (val_toB y Hy).
    assert (Sg : forall b : binary_float prec64 emax64, if Bsign b then (B2R b <= 0)%R else (0 <= B2R b)%R).
    { intros [s|s| |s m e B]; simpl; [destruct s; lra|destruct s; lra|lra|].
      destruct s; [apply Float_prop.F2R_le_0|apply Float_prop.F2R_ge_0]; simpl; lia. }
    pose proof (Sg (toB x Hx)). pose proof (Sg (toB y Hy)). rewrite P2 in *. destruct (Bsign (toB y Hy)); simpl in *; lra.
Qed.

Lemma rnd_mono x y : (x <= y)%R -> (rnd x <= rnd y)%R.
Proof. apply round_le; try typeclasses eauto. Qed.
Lemma rnd_val x : is_double x -> finite x -> rnd (val x) = val x.
Proof.
  intros Hx Fx. apply round_generic; [typeclasses eauto|]. rewrite <- (val_toB x Hx). apply generic_format_B2R.
Qed.
Lemma val_lt_emax x : is_double x -> (Rabs (val x) < bpow radix2 1024)%R.
Proof. intros Hx. rewrite <- (val_toB x Hx). apply abs_B2R_lt_emax. Qed.

Lemma eps_double : is_double b64_eps /\ finite b64_eps.
Proof. split; reflexivity. Qed.
Lemma eps_val : val b64_eps = (30 * bpow radix2 (-52))%R.
Proof.
  unfold val. set (e := b64_eps). vm_compute in e. unfold e, SF2R, F2R. cbn [Fnum Fexp cond_Zopp].
  unfold bpow. simpl. lra.
Qed.

(** The test [(x - y) > epsilon] on doubles. *)
Lemma sub_gt_true x y : is_double x -> is_double y -> finite x -> finite y ->
  SFltb b64_eps (SFsub prec64 emax64 x y) = true -> (val b64_eps < val x - val y)%R.
Proof.
  intros Hx Hy Fx Fy E. destruct (Rlt_le_dec (val b64_eps) (val x - val y)) as [?|L]; auto. exfalso.
  destruct (SFsub_correct x y Hx Hy Fx Fy) as [D P].
  destruct eps_double as [De Fe].
  assert (L' : (rnd (val x - val y) <= val b64_eps)%R) by (rewrite <- (rnd_val b64_eps) by auto; now apply rnd_mono).
  destruct (Rlt_bool_spec (Rabs (rnd (val x - val y))) (bpow radix2 1024)) as [B|B].
  - destruct P as [P F]. rewrite SFltb_val in E by auto. apply Rltb_iff in E. lra.
  - destruct P as ([] & P & S).
    + rewrite P in E. discriminate.
    + assert (0 <= rnd (val x - val y))%R by (rewrite <- (round_0 radix2 (SpecFloat.fexp prec64 emax64) ZnearestE); apply rnd_mono; lra).
      rewrite Rabs_pos_eq in B by auto.
      pose proof (val_lt_emax b64_eps De) as V. rewrite Rabs_pos_eq in V by lra. lra.
Qed.
Lemma sub_gt_false x y : is_double x -> is_double y -> finite x -> finite y ->
  SFltb b64_eps (SFsub prec64 emax64 x y) = false -> (val x - val y <= val b64_eps * (1 + bpow radix2 (-52)))%R.
Proof.
  intros Hx Hy Fx Fy E. destruct (Rle_lt_dec (val x - val y) (val b64_eps * (1 + bpow radix2 (-52)))) as [?|L]; auto. exfalso.
  destruct (SFsub_correct x y Hx Hy Fx Fy) as [D P].
  destruct eps_double as [De Fe].
  (* the next double after epsilon: 30 * 2^-52 = 15 * 2^-51 = (15 * 2^49) * 2^-100 *)
  set (e' := S754_finite false (15 * 2 ^ 49 + 1) (-100)).
  assert (De' : is_double e') by reflexivity. assert (Fe' : finite e') by reflexivity.
  assert (Ve : (val e' = 30 * bpow radix2 (-52) + bpow radix2 (-100))%R).
  { unfold val, e', SF2R, F2R. cbn [Fnum Fexp cond_Zopp]. unfold bpow. simpl. lra. }
  assert (L' : (rnd (val x - val y) >= val e')%R).
  { rewrite <- (rnd_val e') by auto. apply Rle_ge. apply rnd_mono. rewrite Ve, eps_val in *.
    unfold bpow in *. simpl in *. lra. }
  assert (P100 : (0 < bpow radix2 (-100))%R) by apply bpow_gt_0.
  destruct (Rlt_bool_spec (Rabs (rnd (val x - val y))) (bpow radix2 1024)) as [B|B].
  - destruct P as [P F]. rewrite SFltb_val in E by auto. apply Rltb_false in E. rewrite eps_val in E. lra.
  - destruct P as ([] & P & S).
    + pose proof (bpow_gt_0 radix2 (-52)). rewrite eps_val in *. nra.
    + rewrite P in E. discriminate.
Qed.
