(** Facts about binary64 as specified by [SpecFloat], by transfer from Flocq. *)
From Coq Require Import ZArith Reals Bool SpecFloat Lia Lra.
From Flocq Require Import Core IEEE754.BinarySingleNaN.
From Verif Require Import Scalar OrdLib RLib.

Lemma Hprec64 : FLX.Prec_gt_0 prec64. Proof. reflexivity. Qed.
Lemma Hemax64 : Prec_lt_emax prec64 emax64. Proof. reflexivity. Qed.
#[export] Existing Instance Hprec64.
#[export] Existing Instance Hemax64.

(** The two formulations of rounding agree (adapted from Flocq's PrimFloat.v, which
    needs primitive floats). *)
Lemma round_nearest_even_equiv s m l : round_nearest_even m l = choice_mode mode_NE s m l.
Proof. case l; [reflexivity|intro c]. case c; [ | reflexivity..]. now simpl; unfold Round.cond_incr; case Z.even. Qed.

Lemma binary_round_aux_equiv sx mx ex lx :
  SpecFloat.binary_round_aux prec64 emax64 sx mx ex lx = binary_round_aux prec64 emax64 mode_NE sx mx ex lx.
Proof.
  unfold SpecFloat.binary_round_aux, binary_round_aux.
  set (mrse' := shr_fexp _ _ _). case mrse'; intros mrs' e'; simpl.
  now rewrite (round_nearest_even_equiv sx).
Qed.

Lemma binary_round_equiv s m e :
  SpecFloat.binary_round prec64 emax64 s m e = binary_round prec64 emax64 mode_NE s m e.
Proof.
  unfold SpecFloat.binary_round, binary_round, shl_align_fexp.
  set (mez := shl_align _ _ _); case mez as [mz ez]. apply binary_round_aux_equiv.
Qed.

Definition toB (x : spec_float) (H : is_double x) : binary_float prec64 emax64 := SF2B x H.

Lemma toB_SF x H : B2SF (toB x H) = x.
Proof. apply B2SF_SF2B. Qed.

(** The real number a finite double stands for. *)
Definition val (x : spec_float) : R := SF2R radix2 x.
Definition finite (x : spec_float) : Prop := is_finite_SF x = true.

Lemma val_B (b : binary_float prec64 emax64) : val (B2SF b) = B2R b.
Proof. apply SF2R_B2SF. Qed.
Lemma val_toB x H : B2R (toB x H) = val x.
Proof. unfold toB. apply B2R_SF2B. Qed.
Lemma finite_toB x H : is_finite (toB x H) = is_finite_SF x.
Proof. unfold toB. apply is_finite_SF2B. Qed.

Lemma finite_not_nan x : finite x -> not_nan x.
Proof. intros H ->. discriminate. Qed.

Lemma SFleb_val x y : is_double x -> is_double y -> finite x -> finite y ->
  SFleb x y = Rle_bool (val x) (val y).
Proof.
  intros Hx Hy Fx Fy.
  pose proof (Bleb_correct _ _ (toB x Hx) (toB y Hy)) as P.
  rewrite !finite_toB, !val_toB in P. unfold Bleb in P. rewrite !toB_SF in P. auto.
Qed.
Lemma SFltb_val x y : is_double x -> is_double y -> finite x -> finite y ->
  SFltb x y = Rlt_bool (val x) (val y).
Proof.
  intros Hx Hy Fx Fy.
  pose proof (Bltb_correct _ _ (toB x Hx) (toB y Hy)) as P.
  rewrite !finite_toB, !val_toB in P. unfold Bltb in P. rewrite !toB_SF in P. auto.
Qed.

(** ldexp *)
Lemma SFldexp_B (b : binary_float prec64 emax64) e :
  SFldexp prec64 emax64 (B2SF b) e = B2SF (Bldexp mode_NE b e).
Proof.
  case b as [sx|sx| |sx mx ex Bx]; [now trivial.. | ]. simpl.
  rewrite B2SF_SF2B. apply binary_round_equiv.
Qed.

Lemma SFldexp_double x e : is_double x -> is_double (SFldexp prec64 emax64 x e).
Proof. intros H. rewrite <- (toB_SF x H), SFldexp_B. apply valid_binary_B2SF. Qed.

Lemma SFldexp_nan x e : is_nan_SF (SFldexp prec64 emax64 x e) = is_nan_SF x.
Proof.
  destruct x as [s|s| |s m ex]; try reflexivity. simpl. rewrite binary_round_equiv. apply is_nan_binary_round; [apply Hprec64|apply Hemax64].
Qed.

(** A nonnegative double (not NaN). *)
Definition nonneg (x : spec_float) : Prop := SFleb (S754_zero false) x = true.

Lemma SFldexp_nonneg x e : is_double x -> nonneg x -> nonneg (SFldexp prec64 emax64 x e).
Proof.
  intros Hd Hn. destruct x as [s|s| |s m ex]; try exact Hn.
  destruct s; [discriminate|]. cbn [SFldexp]. rewrite binary_round_equiv.
  pose proof (binary_round_correct prec64 emax64 _ _ mode_NE false m (ex + e)) as [_ P]. cbv zeta in P.
  destruct (Rlt_bool _ _).
  - destruct P as (_ & F & S). unfold nonneg.
    destruct (binary_round prec64 emax64 mode_NE false m (ex + e)); simpl in *; subst; try reflexivity; discriminate.
  - rewrite P. reflexivity.
Qed.

Lemma SFldexp_mono x y k : is_double x -> is_double y ->
  SFleb x y = true -> SFleb (SFldexp prec64 emax64 x k) (SFldexp prec64 emax64 y k) = true.
Proof.
  intros Hx Hy Hle.
  assert (Nx : not_nan x) by (intros ->; discriminate).
  assert (Ny : not_nan y) by (intros ->; destruct x as [[]|[]| |[]]; discriminate).
  assert (Nx' : not_nan (SFldexp prec64 emax64 x k)).
  { intros E. pose proof (SFldexp_nan x k). rewrite E in H. destruct x; try discriminate; congruence. }
  assert (Ny' : not_nan (SFldexp prec64 emax64 y k)).
  { intros E. pose proof (SFldexp_nan y k). rewrite E in H. destruct y; try discriminate; congruence. }
  destruct (is_finite_SF x) eqn:Fx.
  2:{ destruct x as [s|s| |s m e]; try discriminate.
      destruct s.
      - cbn [SFldexp]. destruct (SFldexp prec64 emax64 y k) as [s|[]| |s m e]; try reflexivity. congruence.
      - destruct y as [s|[]| |[] m e]; try discriminate. reflexivity. }
  destruct (is_finite_SF y) eqn:Fy.
  2:{ destruct y as [s|s| |s m e]; try discriminate; [|congruence].
      destruct s.
      - destruct x as [s|[]| |[] m e]; try discriminate.
      - cbn [SFldexp]. destruct (SFldexp prec64 emax64 x k) as [s|[]| |s m e]; try reflexivity. congruence. }
  rewrite SFleb_val in Hle by auto. apply Rleb_iff in Hle.
  pose proof (Bldexp_correct prec64 emax64 _ _ mode_NE (toB x Hx) k) as Px.
  pose proof (Bldexp_correct prec64 emax64 _ _ mode_NE (toB y Hy) k) as Py.
  rewrite finite_toB, val_toB, Fx in Px. rewrite finite_toB, val_toB, Fy in Py.
  assert (Ex : SFldexp prec64 emax64 x k = B2SF (Bldexp mode_NE (toB x Hx) k)) by (rewrite <- SFldexp_B, toB_SF; reflexivity).
  assert (Ey : SFldexp prec64 emax64 y k = B2SF (Bldexp mode_NE (toB y Hy) k)) by (rewrite <- SFldexp_B, toB_SF; reflexivity).
  rewrite Ex, Ey in *.
  set (rx := round _ _ _ (val x * _)%R) in *. set (ry := round _ _ _ (val y * _)%R) in *.
  assert (M : (rx <= ry)%R).
  { unfold rx, ry. apply round_le; [apply fexp_correct; apply Hprec64|apply valid_rnd_round_mode|].
    apply Rmult_le_compat_r; auto. apply bpow_ge_0. }
  assert (Bs : forall x H, Bsign (toB x H) = sign_SF x) by (intros; unfold toB; apply Bsign_SF2B).
  rewrite Bs in Px, Py.
  (* sign of the rounded value follows the sign of the operand *)
  assert (Sg : forall x, finite x -> (sign_SF x = true -> (val x <= 0)%R) /\ (sign_SF x = false -> (0 <= val x)%R)).
  { intros z Fz. destruct z as [s|s| |s m e]; try discriminate; unfold val; simpl; split; intros; try lra; subst;
      try (apply F2R_ge_0; simpl; lia); apply F2R_le_0; simpl; lia. }
  assert (Rn : forall x, ((val x <= 0)%R -> (round radix2 (SpecFloat.fexp prec64 emax64) (round_mode mode_NE) (val x * bpow radix2 k) <= 0)%R)
           /\ ((0 <= val x)%R -> (0 <= round radix2 (SpecFloat.fexp prec64 emax64) (round_mode mode_NE) (val x * bpow radix2 k))%R)).
  { intros z. pose proof (bpow_gt_0 radix2 k).
    pose proof (valid_rnd_round_mode mode_NE) as Vr.
    pose proof (fexp_correct prec64 emax64 Hprec64) as Vf.
    split; intros.
    - rewrite <- (round_0 radix2 (SpecFloat.fexp prec64 emax64) (round_mode mode_NE)). apply round_le; auto. nra.
    - rewrite <- (round_0 radix2 (SpecFloat.fexp prec64 emax64) (round_mode mode_NE)) at 1. apply round_le; auto. nra. }
  pose proof (bpow_gt_0 radix2 emax64) as B0.
  destruct (Rlt_bool_spec (Rabs rx) (bpow radix2 emax64)) as [Lx|Lx];
  destruct (Rlt_bool_spec (Rabs ry) (bpow radix2 emax64)) as [Ly|Ly].
  - destruct Px as (Px1 & Px2 & _), Py as (Py1 & Py2 & _).
    rewrite SFleb_val; try apply valid_binary_B2SF; unfold finite; rewrite ?is_finite_SF_B2SF; auto.
    rewrite !val_B, Px1, Py1. apply Rleb_iff. auto.
  - rewrite Py. destruct (sign_SF y) eqn:S.
    + exfalso. pose proof (proj1 (Rn y) (proj1 (Sg y Fy) S)). fold ry in H.
      unfold Rabs in Lx, Ly. destruct (Rcase_abs rx), (Rcase_abs ry); lra.
    + destruct (B2SF (Bldexp mode_NE (toB x Hx) k)) as [s|[]| |s m e]; try reflexivity; congruence.
  - rewrite Px. destruct (sign_SF x) eqn:S.
    + destruct (B2SF (Bldexp mode_NE (toB y Hy) k)) as [s|[]| |s m e]; try reflexivity; congruence.
    + exfalso. pose proof (proj2 (Rn x) (proj2 (Sg x Fx) S)). fold rx in H.
      unfold Rabs in Lx, Ly. destruct (Rcase_abs rx), (Rcase_abs ry); lra.
  - rewrite Px, Py. destruct (sign_SF x) eqn:S, (sign_SF y) eqn:S'; try reflexivity.
    exfalso. pose proof (proj2 (Rn x) (proj2 (Sg x Fx) S)). fold rx in H.
    pose proof (proj1 (Rn y) (proj1 (Sg y Fy) S')). fold ry in H0.
    assert (rx = 0 /\ ry = 0)%R as [-> ->] by lra. rewrite Rabs_R0 in Lx. lra.
Qed.

(** |x - y| does not depend on the order of the operands. *)
Lemma abs_binary_round s s' m e :
  SFabs (SpecFloat.binary_round prec64 emax64 s m e) = SFabs (SpecFloat.binary_round prec64 emax64 s' m e).
Proof.
  unfold SpecFloat.binary_round. destruct (shl_align _ _ _) as [mz ez].
  unfold SpecFloat.binary_round_aux. destruct (shr_fexp _ _ _ _ _) as [mrs' e'].
  destruct (shr_fexp _ _ _ _ _) as [mrs'' e'']. destruct (shr_m mrs''); try reflexivity.
  destruct (_ <=? _)%Z; reflexivity.
Qed.

Lemma abs_sub_sym x y : SFabs (SFsub prec64 emax64 x y) = SFabs (SFsub prec64 emax64 y x).
Proof.
  destruct x as [sx|sx| |sx mx ex], y as [sy|sy| |sy my ey]; try reflexivity.
  - destruct sx, sy; reflexivity.
  - destruct sx, sy; reflexivity.
  - unfold SFsub. rewrite (Z.min_comm ey ex). set (ez := Z.min ex ey).
    set (a := cond_Zopp sx _). set (b := cond_Zopp sy _).
    replace (b - a)%Z with (- (a - b))%Z by ring.
    destruct (a - b)%Z as [|p|p]; try reflexivity; cbn [Z.opp SpecFloat.binary_normalize]; apply abs_binary_round.
Qed.

Lemma abs_sub_same x : finite x -> SFabs (SFsub prec64 emax64 x x) = S754_zero false.
Proof.
  destruct x as [s|s| |s m e]; intros H; try discriminate.
  - destruct s; reflexivity.
  - unfold SFsub. rewrite Z.sub_diag. reflexivity.
Qed.
