(** Literals in a format of any precision are the nearest numbers. *)
From Coq Require Import ZArith NArith Bool SpecFloat Reals Lia Lra.
From Flocq Require Import Core IEEE754.BinarySingleNaN.
From Verif Require Import Scalar B64Lib LitModel LitProofs DecProofs DecProofs2.
Local Open Scope R_scope.

Section Format.
Variables prec emax : Z.
Context (Hp : Prec_gt_0 prec) (Hm : Prec_lt_emax prec emax).
Definition rn (x : R) : R := round radix2 (SpecFloat.fexp prec emax) ZnearestE x.
Lemma aux_equiv sx mx ex lx : SpecFloat.binary_round_aux prec emax sx mx ex lx = binary_round_aux prec emax mode_NE sx mx ex lx.
Proof.
  unfold SpecFloat.binary_round_aux, binary_round_aux. set (mrse' := shr_fexp _ _ _). case mrse'; intros mrs' e'; simpl. now rewrite (round_nearest_even_equiv sx).
Qed.
Lemma literal_ok n x : (0 < n)%Z -> Rabs (rn (IZR n * p10 x)) < bpow radix2 emax ->
  let z := literal prec emax n x in valid_binary prec emax z = true /\ is_finite_SF z = true /\ SF2R radix2 z = rn (IZR n * p10 x).
Proof.
  intros N B. pose proof (fraction_value n x) as Fr. unfold literal.
  assert (Pb : (0 < 10 ^ Z.max (- x) 0)%Z) by (apply Z.pow_pos_nonneg; lia). assert (Pa : (0 < n * 10 ^ Z.max x 0)%Z) by (apply Z.mul_pos_pos; [lia|apply Z.pow_pos_nonneg; lia]).
  destruct (n * 10 ^ Z.max x 0)%Z as [|a|a]; try lia. destruct (10 ^ Z.max (- x) 0)%Z as [|b|b]; try lia.
  pose proof (Bdiv_correct_aux prec emax _ _ mode_NE false a 0 false b 0) as [V P]. revert V P.
  destruct (SFdiv_core_binary prec emax (Z.pos a) 0 (Z.pos b) 0) as [[mz ez] lz]. rewrite <- aux_equiv. cbn [xorb].
  assert (Q : F2R (Float radix2 (cond_Zopp false (Z.pos a)) 0) / F2R (Float radix2 (cond_Zopp false (Z.pos b)) 0) = IZR n * p10 x).
  { rewrite <- Fr. unfold F2R. cbn [Fnum Fexp bpow cond_Zopp]. assert (IZR (Z.pos b) <> 0) by (apply IZR_neq; lia). field; auto. }
  rewrite Q. cbn [round_mode]. fold (rn (IZR n * p10 x)). rewrite Rlt_bool_true by exact B. intros V (P1 & P2 & P3). auto.
Qed.
Lemma rn_mono x y : x <= y -> rn x <= rn y.
Proof. apply round_le; apply _. Qed.
Lemma value_format x : valid_binary prec emax x = true -> generic_format radix2 (SpecFloat.fexp prec emax) (SF2R radix2 x).
Proof. intros V. pose proof (generic_format_B2R prec emax (SF2B x V)) as G. rewrite B2R_SF2B in G. exact G. Qed.
Lemma rn_nearest v x : valid_binary prec emax x = true -> Rabs (rn v - v) <= Rabs (SF2R radix2 x - v).
Proof.
  intros V. destruct (round_N_pt radix2 (SpecFloat.fexp prec emax) (fun z => negb (Z.even z)) v) as [_ N]. apply (N _ (value_format x V)).
Qed.
(** Two decimals around v give the same number: it is the nearest to v. *)
Lemma around v n n' x c : (0 < n)%Z -> (0 < n')%Z -> IZR n * p10 x <= v <= IZR n' * p10 x -> Rabs (rn (IZR n' * p10 x)) < bpow radix2 emax -> literal prec emax n x = c -> literal prec emax n' x = c ->
  valid_binary prec emax c = true /\ is_finite_SF c = true /\ SF2R radix2 c = rn v.
Proof.
  intros N N' [L H] B E E'. pose proof (p10_pos x) as P. assert (Lp : 0 < IZR n * p10 x) by (apply Rmult_lt_0_compat; [now apply IZR_lt|exact P]).
  assert (R0 : rn 0 = 0) by (apply round_0; apply _). pose proof (rn_mono _ _ L) as M1. pose proof (rn_mono _ _ H) as M2. pose proof (rn_mono 0 _ (Rlt_le _ _ Lp)) as M0. rewrite R0 in M0.
  destruct (literal_ok n' x N' B) as (V' & F' & S'). destruct (literal_ok n x N) as (V & F & S). { rewrite Rabs_pos_eq in B |- *; lra. }
  cbv zeta in *. rewrite E in S, V, F. rewrite E' in S'. split; [exact V|]. split; [exact F|]. lra.
Qed.
End Format.
