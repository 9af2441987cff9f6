(** Conversion from integers and products of IEEE numbers of any precision, by transfer from Flocq. *)
From Coq Require Import ZArith Reals Bool SpecFloat Lia Lra.
From Flocq Require Import Core IEEE754.BinarySingleNaN.
From Verif Require Import Scalar OrdLib RLib B64Lib.

Section Ops.
Variables prec emax : Z.
Context (Hp : FLX.Prec_gt_0 prec) (He : Prec_lt_emax prec emax).
Let round' (x : R) : R := round radix2 (SpecFloat.fexp prec emax) ZnearestE x.
Lemma aux_equiv sx mx ex lx : SpecFloat.binary_round_aux prec emax sx mx ex lx = binary_round_aux prec emax mode_NE sx mx ex lx.
Proof.
  unfold SpecFloat.binary_round_aux, binary_round_aux.
  set (mrse' := shr_fexp _ _ _). case mrse'; intros mrs' e'; simpl.
  now rewrite (round_nearest_even_equiv sx).
Qed.
Lemma round_equiv s m e : SpecFloat.binary_round prec emax s m e = binary_round prec emax mode_NE s m e.
Proof. unfold SpecFloat.binary_round, binary_round, shl_align_fexp. set (mez := shl_align _ _ _); case mez as [mz ez]. apply aux_equiv. Qed.
Lemma normalize_equiv m e s : SpecFloat.binary_normalize prec emax m e s = B2SF (binary_normalize prec emax _ _ mode_NE m e s).
Proof. case m as [ | p | p]; simpl; auto; rewrite B2SF_SF2B; apply round_equiv. Qed.
Lemma mul_B (x y : binary_float prec emax) : SFmul prec emax (B2SF x) (B2SF y) = B2SF (Bmult mode_NE x y).
Proof. case x as [sx|sx| |sx mx ex Bx]; case y as [sy|sy| |sy my ey By]; simpl; auto. rewrite B2SF_SF2B. apply aux_equiv. Qed.

Definition valid_float (x : spec_float) : Prop := valid_binary prec emax x = true.
Lemma float_B (b : binary_float prec emax) : valid_float (B2SF b). Proof. apply valid_binary_B2SF. Qed.

(** An integer is converted to the float next to it. *)
Lemma ofZ_correct z : (Rabs (round' (IZR z)) < bpow radix2 emax)%R ->
  let f := SpecFloat.binary_normalize prec emax z 0 false in valid_float f /\ finite f /\ val f = round' (IZR z).
Proof.
  intros B f. unfold f. rewrite normalize_equiv. split; [apply float_B|].
  pose proof (binary_normalize_correct prec emax Hp He mode_NE z 0 false) as P.
  assert (F : F2R (Float radix2 z 0) = IZR z) by (unfold F2R; cbn; ring). rewrite F in P. cbn [round_mode] in P. fold (round' (IZR z)) in P.
  rewrite Rlt_bool_true in P by exact B. destruct P as (P1 & P2 & _).
  split; [unfold finite; rewrite <- P2; apply is_finite_SF_B2SF|]. rewrite <- P1. apply SF2R_B2SF.
Qed.
(** A product that does not overflow is the float next to the exact product. *)
Lemma mul_correct x y : valid_float x -> valid_float y -> finite x -> finite y -> (Rabs (round' (val x * val y)) < bpow radix2 emax)%R ->
  let f := SFmul prec emax x y in valid_float f /\ finite f /\ val f = round' (val x * val y).
Proof.
  intros Vx Vy Fx Fy B f. unfold f.
  pose proof (Bmult_correct prec emax Hp He mode_NE (SF2B x Vx) (SF2B y Vy)) as P. cbn [round_mode] in P.
  rewrite !B2R_SF2B in P. fold (val x) (val y) in P. fold (round' (val x * val y)) in P. rewrite Rlt_bool_true in P by exact B.
  pose proof (mul_B (SF2B x Vx) (SF2B y Vy)) as E. rewrite !B2SF_SF2B in E. rewrite E. split; [apply float_B|].
  destruct P as (P1 & P2 & _). rewrite !is_finite_SF2B in P2. split; [|rewrite <- P1; apply SF2R_B2SF].
  unfold finite. rewrite is_finite_SF_B2SF, P2. unfold finite in Fx, Fy. now rewrite Fx, Fy.
Qed.
Lemma round_val x : valid_float x -> finite x -> round' (val x) = val x.
Proof. intros V F. apply round_generic; [typeclasses eauto|]. unfold val. rewrite <- (B2R_SF2B prec emax x V). apply generic_format_B2R. Qed.
Lemma val_bound x : valid_float x -> (Rabs (val x) < bpow radix2 emax)%R.
Proof. intros V. unfold val. rewrite <- (B2R_SF2B prec emax x V). apply abs_B2R_lt_emax. Qed.
Lemma round_mono x y : (x <= y)%R -> (round' x <= round' y)%R.
Proof. apply round_le; typeclasses eauto. Qed.
End Ops.
