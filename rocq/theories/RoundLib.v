(** The binary64 operations as exact operations followed by one rounding, with error bounds. *)
From Coq Require Import ZArith Reals Bool SpecFloat Lia Lra List.
From Flocq Require Import Core Relative Plus_error IEEE754.BinarySingleNaN.
From Verif Require Import Scalar OrdLib RLib B64Lib B64Ops FloatOps.
Open Scope R_scope.

(** the relative error of one rounding and the absolute error near zero *)
Definition u64 : R := bpow radix2 (-53).
Definition eta64 : R := bpow radix2 (-1075).
Definition big : R := bpow radix2 1023.
Definition fl (x : spec_float) : Prop := is_double x /\ finite x.

Lemma u64_pos : 0 < u64 <= / 4.
Proof. split; [apply bpow_gt_0|]. unfold u64. change (/4) with (bpow radix2 (-2)). apply bpow_le. lia. Qed.
Lemma eta64_pos : 0 < eta64.
Proof. apply bpow_gt_0. Qed.
Lemma big_pos : 0 < big.
Proof. apply bpow_gt_0. Qed.
Lemma u64_eq : / 2 * bpow radix2 (Z.opp 53 + 1) = u64.
Proof. unfold u64. change (/2) with (bpow radix2 (-1)). rewrite <- bpow_plus. f_equal. Qed.
Lemma eta64_eq : / 2 * bpow radix2 (-1074) = eta64.
Proof. unfold eta64. change (/2) with (bpow radix2 (-1)). rewrite <- bpow_plus. f_equal. Qed.

Lemma rnd_FLT x : rnd x = round radix2 (FLT_exp (-1074) 53) ZnearestE x.
Proof. reflexivity. Qed.

Lemma rnd_err x : Rabs (rnd x - x) <= u64 * Rabs x + eta64.
Proof.
  rewrite rnd_FLT. destruct (error_N_FLT radix2 (-1074) 53 ltac:(lia) (fun z => negb (Z.even z)) x) as (e & h & He & Hh & _ & E).
  rewrite u64_eq in He. rewrite eta64_eq in Hh.
  replace (round _ _ _ x - x) with (x * e + h) by (rewrite E; ring).
  eapply Rle_trans; [apply Rabs_triang|]. rewrite Rabs_mult.
  pose proof (Rmult_le_compat_l _ _ _ (Rabs_pos x) He). lra.
Qed.
Lemma fl_format x : fl x -> generic_format radix2 (FLT_exp (-1074) 53) (val x).
Proof. intros [D F]. rewrite <- (val_toB x D). apply generic_format_B2R. Qed.
Lemma rnd_add_err x y : generic_format radix2 (FLT_exp (-1074) 53) x -> generic_format radix2 (FLT_exp (-1074) 53) y ->
  Rabs (rnd (x + y) - (x + y)) <= u64 * Rabs (x + y).
Proof.
  intros Fx Fy. rewrite rnd_FLT. destruct (@FLT_plus_error_N_ex radix2 (-1074) 53 ltac:(reflexivity) (fun z => negb (Z.even z)) x y Fx Fy) as (e & He & E).
  replace (round _ _ _ (x + y) - (x + y)) with ((x + y) * e) by (rewrite E; ring).
  rewrite Rabs_mult. assert (Rabs e <= u64).
  { eapply Rle_trans; [exact He|]. unfold u_ro. rewrite u64_eq. pose proof u64_pos.
    apply Rmult_le_reg_r with (1 + u64); [lra|]. unfold Rdiv. rewrite Rmult_assoc, Rinv_l by lra. nra. }
  pose proof (Rmult_le_compat_l _ _ _ (Rabs_pos (x + y)) H). lra.
Qed.
Lemma rnd_rel_err x : bpow radix2 (-1022) <= Rabs x -> Rabs (rnd x - x) <= u64 * Rabs x.
Proof.
  intros L. rewrite rnd_FLT. rewrite <- u64_eq. apply (relative_error_N_FLT radix2 (-1074) 53 ltac:(lia)). exact L.
Qed.
Lemma rnd_bpow e : (-1074 <= e)%Z -> rnd (bpow radix2 e) = bpow radix2 e.
Proof.
  intros L. apply round_generic; [typeclasses eauto|]. apply (generic_format_FLT_bpow radix2 (-1074) 53). exact L.
Qed.
Lemma rnd_opp x : rnd (- x) = - rnd x.
Proof. unfold rnd. apply round_NE_opp. Qed.
Lemma rnd_0 : rnd 0 = 0.
Proof. apply round_0; typeclasses eauto. Qed.
Lemma rnd_abs_le x e : (-1074 <= e)%Z -> Rabs x <= bpow radix2 e -> Rabs (rnd x) <= bpow radix2 e.
Proof.
  intros L B. apply Rabs_le. apply Rabs_le_inv in B. destruct B as [B1 B2].
  rewrite <- (rnd_bpow e L). rewrite <- rnd_opp. split; apply rnd_mono; auto.
Qed.
Lemma rnd_big x : Rabs x <= big -> Rabs (rnd x) < bpow radix2 1024.
Proof. intros B. eapply Rle_lt_trans; [apply (rnd_abs_le x 1023); [lia|exact B]|]. apply bpow_lt. lia. Qed.
Lemma rnd_nonneg x : 0 <= x -> 0 <= rnd x.
Proof. intros L. rewrite <- rnd_0. now apply rnd_mono. Qed.
Lemma rnd_idem x : fl x -> rnd (val x) = val x.
Proof. intros [D F]. now apply rnd_val. Qed.

(** ** The operations *)
Lemma add_ok x y : fl x -> fl y -> Rabs (val x + val y) <= big ->
  fl (SFadd prec64 emax64 x y) /\ val (SFadd prec64 emax64 x y) = rnd (val x + val y).
Proof.
  intros [Dx Fx] [Dy Fy] B. pose proof (Bplus_correct _ _ _ _ mode_NE (toB x Dx) (toB y Dy)) as P.
  rewrite !finite_toB in P. specialize (P Fx Fy). rewrite !val_toB in P. cbn [round_mode] in P.
  fold (rnd (val x + val y)) in P. rewrite Rlt_bool_true in P by (apply rnd_big, B). destruct P as (P1 & P2 & _).
  pose proof (SFadd_B (toB x Dx) (toB y Dy)) as E. rewrite !toB_SF in E. rewrite E. split; [split; [apply double_B|]|].
  - unfold finite. rewrite <- P2. apply is_finite_SF_B2SF.
  - rewrite val_B. exact P1.
Qed.
Lemma sub_ok x y : fl x -> fl y -> Rabs (val x - val y) <= big ->
  fl (SFsub prec64 emax64 x y) /\ val (SFsub prec64 emax64 x y) = rnd (val x - val y).
Proof.
  intros [Dx Fx] [Dy Fy] B. destruct (SFsub_correct x y Dx Dy Fx Fy) as [D P].
  rewrite Rlt_bool_true in P by (apply rnd_big, B). destruct P as [P F]. split; [split|]; auto.
Qed.
Lemma mul_ok x y : fl x -> fl y -> Rabs (val x * val y) <= big ->
  fl (SFmul prec64 emax64 x y) /\ val (SFmul prec64 emax64 x y) = rnd (val x * val y).
Proof.
  intros [Dx Fx] [Dy Fy] B.
  destruct (mul_correct prec64 emax64 ltac:(reflexivity) ltac:(reflexivity) x y Dx Dy Fx Fy (rnd_big _ B)) as (V & F & E).
  split; [split|]; auto.
Qed.
Lemma SFdiv_B (x y : binary_float prec64 emax64) : SFdiv prec64 emax64 (B2SF x) (B2SF y) = B2SF (Bdiv mode_NE x y).
Proof.
  case x as [sx|sx| |sx mx ex Bx]; case y as [sy|sy| |sy my ey By]; [now (trivial || simpl; case Bool.eqb).. | ].
  simpl. rewrite B2SF_SF2B. set (melz := SFdiv_core_binary _ _ _ _ _ _). case melz as [[mz ez] lz]. apply binary_round_aux_equiv.
Qed.
Lemma div_ok x y : fl x -> fl y -> val y <> 0 -> Rabs (val x / val y) <= big ->
  fl (SFdiv prec64 emax64 x y) /\ val (SFdiv prec64 emax64 x y) = rnd (val x / val y).
Proof.
  intros [Dx Fx] [Dy Fy] N B. pose proof (Bdiv_correct _ _ _ _ mode_NE (toB x Dx) (toB y Dy)) as P.
  rewrite !val_toB in P. specialize (P N). cbn [round_mode] in P.
  fold (rnd (val x / val y)) in P. rewrite Rlt_bool_true in P by (apply rnd_big, B). destruct P as (P1 & P2 & _).
  pose proof (SFdiv_B (toB x Dx) (toB y Dy)) as E. rewrite !toB_SF in E. rewrite E. split; [split; [apply double_B|]|].
  - unfold finite. rewrite is_finite_SF_B2SF, P2, finite_toB. exact Fx.
  - rewrite val_B. exact P1.
Qed.
Lemma SFsqrt_B (x : binary_float prec64 emax64) : SFsqrt prec64 emax64 (B2SF x) = B2SF (Bsqrt mode_NE x).
Proof.
  case x as [sx|sx| |sx mx ex Bx]; [now (trivial || case sx).. | ]. case sx; [reflexivity|].
  simpl. rewrite B2SF_SF2B. set (melz := SFsqrt_core_binary _ _ _ _). case melz as [[mz ez] lz]. apply binary_round_aux_equiv.
Qed.
Lemma sqrt_ok x : fl x -> 0 <= val x ->
  fl (SFsqrt prec64 emax64 x) /\ val (SFsqrt prec64 emax64 x) = rnd (sqrt (val x)).
Proof.
  intros [Dx Fx] N. pose proof (Bsqrt_correct _ _ _ _ mode_NE (toB x Dx)) as P. cbn [round_mode] in P.
  rewrite !val_toB in P. fold (rnd (sqrt (val x))) in P. destruct P as (P1 & P2 & _).
  pose proof (SFsqrt_B (toB x Dx)) as E. rewrite !toB_SF in E. rewrite E. split; [split; [apply double_B|]|].
  - unfold finite. rewrite is_finite_SF_B2SF, P2. pose proof (finite_toB x Dx) as G. pose proof (val_toB x Dx) as V.
    destruct (toB x Dx) as [s|s| |s mm e Be]; cbn [is_finite] in G; try reflexivity; try (unfold finite in Fx; congruence).
    destruct s; [|reflexivity]. exfalso. assert (B2R (B754_finite true mm e Be) < 0); [|lra].
    unfold B2R. cbn [cond_Zopp]. apply Float_prop.F2R_lt_0. simpl. lia.
  - rewrite val_B. exact P1.
Qed.
Lemma abs_ok x : fl x -> fl (SFabs x) /\ val (SFabs x) = Rabs (val x).
Proof.
  intros [D F]. destruct x as [s|s| |s mm e]; try discriminate F; cbn [SFabs].
  - repeat split. unfold val, SF2R. now rewrite Rabs_R0.
  - split; [split; [exact D|reflexivity]|]. unfold val, SF2R. rewrite <- Float_prop.F2R_Zabs. destruct s; reflexivity.
Qed.
Lemma opp_ok x : fl x -> fl (SFopp x) /\ val (SFopp x) = - val x.
Proof.
  intros [D F]. destruct x as [s|s| |s mm e]; try discriminate F; cbn [SFopp].
  - repeat split. unfold val, SF2R. lra.
  - split; [split; [exact D|reflexivity]|]. unfold val, SF2R. rewrite <- Float_prop.F2R_Zopp. destruct s; reflexivity.
Qed.
Lemma ltb_ok x y : fl x -> fl y -> SFltb x y = Rlt_bool (val x) (val y).
Proof. intros [] []. now apply SFltb_val. Qed.
Lemma leb_ok x y : fl x -> fl y -> SFleb x y = Rle_bool (val x) (val y).
Proof. intros [] []. now apply SFleb_val. Qed.
Lemma ldexp_ok x e : fl x -> Rabs (val x * bpow radix2 e) <= big ->
  fl (SFldexp prec64 emax64 x e) /\ val (SFldexp prec64 emax64 x e) = rnd (val x * bpow radix2 e).
Proof.
  intros [Dx Fx] B. pose proof (Bldexp_correct _ _ _ _ mode_NE (toB x Dx) e) as P. cbn [round_mode] in P.
  rewrite !val_toB in P. fold (rnd (val x * bpow radix2 e)) in P. rewrite Rlt_bool_true in P by (apply rnd_big, B). destruct P as (P1 & P2 & _).
  pose proof (SFldexp_B (toB x Dx) e) as E. rewrite !toB_SF in E. rewrite E. split; [split; [apply double_B|]|].
  - unfold finite. rewrite is_finite_SF_B2SF, P2, finite_toB. exact Fx.
  - rewrite val_B. exact P1.
Qed.
Lemma frexp_ok m x : fl x -> b64_frexp m x = Rfrexp (val x).
Proof.
  intros [D F]. unfold Rfrexp. destruct x as [s|s| |s mm e]; try discriminate F.
  - unfold val, SF2R. now rewrite Req_bool_true.
  - set (x := S754_finite s mm e) in *.
    pose proof (Bfrexp_correct prec64 emax64 _ (toB x D)) as P.
    assert (Q : (let (f, e') := Bfrexp (toB x D) in (B2SF f, e')) = SFfrexp prec64 emax64 x).
    { unfold toB, x. simpl. rewrite B2SF_SF2B. unfold Ffrexp_core_binary. change (digits2_pos mm) with (Digits.digits2_pos mm). now destruct Pos.leb. }
    cbn [b64_frexp x]. fold x. revert P Q. destruct (Bfrexp (toB x D)) as [z e']. intros P Q. rewrite <- Q. cbn [snd].
    specialize (P ltac:(reflexivity)). destruct P as [_ P]. specialize (P ltac:(reflexivity)). destruct P as [_ P].
    rewrite val_toB in P. rewrite Req_bool_false; [exact P|].
    unfold x, val, SF2R. destruct s; [apply Rlt_not_eq, Float_prop.F2R_lt_0|apply Rgt_not_eq, Float_prop.F2R_gt_0]; simpl; lia.
Qed.
