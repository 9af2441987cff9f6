(** Doubles: the centre of a box, the centre of a ball and the ends of a segment. *)
From Coq Require Import ZArith NArith Reals Bool SpecFloat Lia Lra List Psatz.
From Flocq Require Import Core IEEE754.BinarySingleNaN.
From Flocq Require Import Mult_error.
From Verif Require Import Base Scalar OrdLib RLib B64Lib B64Ops FloatOps RSpec ConstModel VecModel RotModel VecSpec ConstSpec RoundSpec
  RoundLib RoundProofs RoundProofs2 RoundProofs3 RoundProofs4 RoundProofs5 BallDouble SphereDouble RotRound CoordRound RbDouble.
From Verif Require Import ShapeModel IntersectModel ShapeSpec.
Import ListNotations.
Open Scope R_scope.

(** ** Halving *)
Lemma twice_format x : generic_format radix2 (FLT_exp (-1074) 53) (2 * rnd (x / 2)).
Proof.
  assert (F : generic_format radix2 (FLT_exp (-1074) 53) (rnd (x / 2))) by (rewrite rnd_FLT; apply generic_format_round; [apply FLT_exp_valid; reflexivity|apply valid_rnd_N]).
  destruct (Req_dec (rnd (x / 2)) 0) as [->|N]; [rewrite Rmult_0_r; apply generic_format_0|].
  rewrite Rmult_comm. change 2 with (bpow radix2 1). apply mult_bpow_pos_exact_FLT; [exact F|lia].
Qed.
Lemma rnd_format x : generic_format radix2 (FLT_exp (-1074) 53) x -> rnd x = x.
Proof. intros F. rewrite rnd_FLT. apply round_generic; [apply valid_rnd_N|exact F]. Qed.
Lemma half_exact x : generic_format radix2 (FLT_exp (-1074) 53) x -> x = 0 \/ bpow radix2 (-1021) <= Rabs x -> 2 * rnd (x / 2) = x.
Proof.
  intros F [->|B]; [unfold Rdiv; rewrite Rmult_0_l, rnd_0; ring|]. rewrite rnd_format; [field|]. unfold Rdiv. change (/ 2) with (bpow radix2 (-1)). apply mult_bpow_exact_FLT; [exact F|].
  assert (-1021 < Raux.mag radix2 x)%Z by (apply mag_gt_bpow; exact B). lia.
Qed.
Lemma half_near x : generic_format radix2 (FLT_exp (-1074) 53) x -> Rabs (2 * rnd (x / 2) - x) <= 2 * eta64.
Proof.
  intros F. pose proof eta64_pos as E. destruct (Rle_dec (bpow radix2 (-1021)) (Rabs x)) as [L|L].
  - rewrite half_exact by auto. rewrite Rminus_diag_eq, Rabs_R0 by auto. lra.
  - apply Rnot_le_lt in L. replace (2 * rnd (x / 2) - x) with (2 * (rnd (x / 2) - x / 2)) by field. rewrite Rabs_mult, (Rabs_pos_eq 2) by lra. apply Rmult_le_compat_l; [lra|].
    rewrite rnd_FLT. eapply Rle_trans; [apply error_le_half_ulp; apply FLT_exp_valid; reflexivity|]. rewrite ulp_FLT_small.
    + rewrite <- eta64_eq. lra.
    + reflexivity.
    + unfold Rdiv. rewrite Rabs_mult, (Rabs_pos_eq (/ 2)) by lra. pose proof (Rabs_pos x). apply Rlt_le_trans with (bpow radix2 (-1021)); [lra|apply bpow_le; lia].
Qed.
(** the sum of two halves is between the ends *)
Lemma halves lo hi : lo <= hi -> 2 * rnd (lo / 2) <= rnd (rnd (lo / 2) + rnd (hi / 2)) <= 2 * rnd (hi / 2).
Proof.
  intros L. assert (M : rnd (lo / 2) <= rnd (hi / 2)) by (apply rnd_mono; lra).
  pose proof (rnd_format _ (twice_format lo)) as E1. pose proof (rnd_format _ (twice_format hi)) as E2.
  pose proof (rnd_mono (2 * rnd (lo / 2)) (rnd (lo / 2) + rnd (hi / 2)) ltac:(lra)). pose proof (rnd_mono (rnd (lo / 2) + rnd (hi / 2)) (2 * rnd (hi / 2)) ltac:(lra)). lra.
Qed.

Section Centre.
Variable m : libm.
Variables a b : spec_float.
Hypothesis Fa : fl a.
Hypothesis Fb : fl b.
Hypothesis Ba : Rabs (val a) <= bpow radix2 1022.
Hypothesis Bb : Rabs (val b) <= bpow radix2 1022.
Definition mid_ : spec_float := nadd (Num := B64 m) (nmul (Num := B64 m) a (nsub (Num := B64 m) (n1 (H := B64 m)) (nhalf (H := B64 m)))) (nmul (Num := B64 m) b (nhalf (H := B64 m))).
Lemma mid_value : fl mid_ /\ val mid_ = rnd (rnd (val a / 2) + rnd (val b / 2)).
Proof.
  destruct (half_vals m) as (Fh & Vh & Fc & Vc). assert (B : bpow radix2 1022 * 2 = big) by (change 2 with (bpow radix2 1); rewrite <- bpow_plus; reflexivity). pose proof (bpow_gt_0 radix2 1022) as P.
  pose proof (Rabs_le_inv _ _ Ba) as Ia. pose proof (Rabs_le_inv _ _ Bb) as Ib.
  destruct (mul_ok a _ Fa Fc) as [F1 E1]. { rewrite Vc. apply Rabs_le. lra. }
  destruct (mul_ok b _ Fb Fh) as [F2 E2]. { rewrite Vh. apply Rabs_le. lra. }
  rewrite Vc in E1. rewrite Vh in E2.
  assert (R1 : Rabs (rnd (val a * / 2)) <= bpow radix2 1022) by (apply rnd_abs_le; [lia|apply Rabs_le; lra]).
  assert (R2 : Rabs (rnd (val b * / 2)) <= bpow radix2 1022) by (apply rnd_abs_le; [lia|apply Rabs_le; lra]).
  unfold mid_. cbn [nadd nmul B64] in *. destruct (add_ok _ _ F1 F2) as [F3 E3]. { rewrite E1, E2. apply Rabs_le_inv in R1, R2. apply Rabs_le. lra. }
  split; [exact F3|]. now rewrite E3, E1, E2.
Qed.
Lemma mid_between : val a <= val b -> val a - 2 * eta64 <= val mid_ <= val b + 2 * eta64 /\
  ((val a = 0 \/ bpow radix2 (-1021) <= Rabs (val a)) -> (val b = 0 \/ bpow radix2 (-1021) <= Rabs (val b)) -> val a <= val mid_ <= val b).
Proof.
  intros L. rewrite (proj2 mid_value). pose proof (halves _ _ L) as H. pose proof (half_near (val a) (fl_format a Fa)) as Na. pose proof (half_near (val b) (fl_format b Fb)) as Nb.
  apply Rabs_le_inv in Na, Nb. split; [lra|]. intros Ea Eb. rewrite (half_exact (val a)), (half_exact (val b)) in H; auto using fl_format.
Qed.
End Centre.

(** ** Zeros *)
Lemma nsum_zero (m : libm) n (f : nat -> spec_float) : (forall i, (i < n)%nat -> fl (f i) /\ val (f i) = 0) -> fl (nsum (H := B64 m) n f) /\ val (nsum (H := B64 m) n f) = 0.
Proof.
  induction n as [|n IH]; intros Z; [apply n0_ok|]. rewrite nsum_step. destruct IH as [F V]; [intros i Hi; apply Z; lia|]. destruct (Z n ltac:(lia)) as [F' V']. cbn [nadd B64].
  destruct (add_ok _ _ F F') as [F2 V2]. { rewrite V, V', Rplus_0_r, Rabs_R0. apply bpow_ge_0. } split; [exact F2|]. now rewrite V2, V, V', Rplus_0_r, rnd_0.
Qed.
Lemma mul_zero a b : fl a -> fl b -> val a = 0 \/ val b = 0 -> fl (SFmul prec64 emax64 a b) /\ val (SFmul prec64 emax64 a b) = 0.
Proof.
  intros Fa Fb Z. assert (P : val a * val b = 0) by (destruct Z as [-> | ->]; ring). destruct (mul_ok a b Fa Fb) as [F V]. { rewrite P, Rabs_R0. apply bpow_ge_0. } split; [exact F|]. now rewrite V, P, rnd_0.
Qed.
Lemma sub_self a : fl a -> fl (SFsub prec64 emax64 a a) /\ val (SFsub prec64 emax64 a a) = 0.
Proof. intros F. destruct (sub_ok a a F F) as [F' V]. { rewrite Rminus_diag_eq, Rabs_R0 by auto. apply bpow_ge_0. } split; [exact F'|]. now rewrite V, Rminus_diag_eq, rnd_0. Qed.
Lemma equal_zero (m : libm) a b : fl a -> fl b -> val a = 0 -> val b = 0 -> equal (H := B64 m) a b b64_eps = true.
Proof.
  intros Fa Fb Va Vb. unfold equal, scale_eps. cbn [nabs nsub nleb nltb nldexp nfrexp B64].
  destruct (sub_ok a b Fa Fb) as [Fs Vs]. { rewrite Va, Vb, Rminus_0_r, Rabs_R0. apply bpow_ge_0. } rewrite Va, Vb, Rminus_0_r, rnd_0 in Vs. destruct (abs_ok _ Fs) as [Fd Vd]. rewrite Vs, Rabs_R0 in Vd.
  set (x := if SFltb (SFabs a) (SFabs b) then a else b). assert (X : fl x /\ val x = 0) by (unfold x; destruct (SFltb _ _); auto). destruct X as [Fx Vx].
  rewrite (frexp_ok m x Fx), Vx. unfold Rfrexp. rewrite Req_bool_true by auto.
  destruct (ldexp_ok b64_eps 0 eps_fl) as [Fe Ve]. { rewrite Rmult_1_r, eps_u. pose proof u_small. rewrite Rabs_pos_eq by lra. pose proof (big_ge). lra. }
  rewrite leb_ok by auto. rewrite Vd, Ve. apply Rle_bool_true. rewrite Rmult_1_r, (rnd_idem _ eps_fl), eps_u. pose proof u_small. lra.
Qed.
