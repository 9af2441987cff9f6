(** Decimal texts: reading gives the nearest double, printing gives the nearest decimal. *)
From Coq Require Import ZArith NArith Bool Ascii String List SpecFloat Reals Lia Lra.
From Flocq Require Import Core IEEE754.BinarySingleNaN.
From Verif Require Import Base Scalar B64Lib B64Ops RoundLib StreamModel StreamSpec DecModel DecProofs.
Import ListNotations.
Local Open Scope R_scope.

(** ** Reading *)
Lemma fraction_value n x : (IZR (n * 10 ^ Z.max x 0) / IZR (10 ^ Z.max (- x) 0) = IZR n * p10 x)%R.
Proof.
  rewrite mult_IZR, !p10_IZR by lia. destruct (Z.le_gt_cases 0 x).
  - rewrite Z.max_l, Z.max_r by lia. rewrite p10_0. field.
  - rewrite Z.max_r, Z.max_l by lia. rewrite p10_0, p10_inv. field. apply Rgt_not_eq, p10_pos.
Qed.
Lemma nearest_ok s n x : (0 < n)%Z -> Rabs (rnd (IZR n * p10 x)) < bpow radix2 1024 ->
  exists z, nearest_double s n x = Some z /\ fl z /\ val z = (if s then - rnd (IZR n * p10 x) else rnd (IZR n * p10 x)) /\ sign_SF z = s.
Proof.
  intros N B. pose proof (fraction_value n x) as Fr. unfold nearest_double.
  assert (Pb : (0 < 10 ^ Z.max (- x) 0)%Z) by (apply Z.pow_pos_nonneg; lia). assert (Pa : (0 < n * 10 ^ Z.max x 0)%Z) by (apply Z.mul_pos_pos; [lia|apply Z.pow_pos_nonneg; lia]).
  destruct n as [|n|n]; try lia. destruct (10 ^ Z.max (- x) 0)%Z as [|b|b]; try lia. destruct (Zpos n * 10 ^ Z.max x 0)%Z as [|a|a]; try lia.
  pose proof (Bdiv_correct_aux prec64 emax64 _ _ mode_NE s a 0 false b 0) as [V P]. revert V P.
  destruct (SFdiv_core_binary prec64 emax64 (Z.pos a) 0 (Z.pos b) 0) as [[mz ez] lz]. rewrite <- binary_round_aux_equiv. rewrite xorb_false_r.
  assert (Q : F2R (Float radix2 (cond_Zopp s (Z.pos a)) 0) / F2R (Float radix2 (cond_Zopp false (Z.pos b)) 0) = if s then - (IZR (Z.pos n) * p10 x) else IZR (Z.pos n) * p10 x).
  { rewrite <- Fr. unfold F2R. cbn [Fnum Fexp bpow cond_Zopp]. assert (IZR (Z.pos b) <> 0) by (apply IZR_neq; lia). destruct s; cbn [cond_Zopp]; [change (Z.neg a) with (- Z.pos a)%Z; rewrite opp_IZR|]; field; auto. }
  rewrite Q. cbn [round_mode].
  assert (Rn : round radix2 (SpecFloat.fexp prec64 emax64) ZnearestE (if s then - (IZR (Z.pos n) * p10 x) else IZR (Z.pos n) * p10 x) = if s then - rnd (IZR (Z.pos n) * p10 x) else rnd (IZR (Z.pos n) * p10 x)).
  { destruct s; [apply rnd_opp|reflexivity]. }
  rewrite Rn. rewrite Rlt_bool_true by (destruct s; rewrite ?Rabs_Ropp; exact B). intros V (P1 & P2 & P3).
  set (z := SpecFloat.binary_round_aux _ _ _ _ _ _) in *. exists z.
  split; [destruct z; try reflexivity; discriminate P2|]. split; [split; auto|]. split; auto.
Qed.

(** ** Printing *)
Lemma le_div a b k : 0 < b -> k * b <= a -> k <= a / b.
Proof. intros B H. apply Rmult_le_reg_r with b; auto. unfold Rdiv. rewrite Rmult_assoc, Rinv_l, Rmult_1_r by lra. exact H. Qed.
Lemma div_lt a b k : 0 < b -> a < k * b -> a / b < k.
Proof. intros B H. apply Rmult_lt_reg_r with b; auto. unfold Rdiv. rewrite Rmult_assoc, Rinv_l, Rmult_1_r by lra. exact H. Qed.
Lemma first_exp_ok a b : (0 < a)%Z -> (0 < b)%Z -> p10 (first_exp a b) <= IZR a / IZR b < p10 (first_exp a b + 1).
Proof.
  intros A B. assert (Br : 0 < IZR b) by now apply IZR_lt. assert (Ar : 0 < IZR a) by now apply IZR_lt. unfold first_exp. destruct (Z.leb_spec b a) as [L|L].
  - assert (Q : (1 <= a / b)%Z) by (apply Z.div_le_lower_bound; lia). destruct (ndigits_ok _ Q) as (N & N1 & N2). pose proof (Z.div_mod a b ltac:(lia)). pose proof (Z.mod_pos_bound a b B).
    replace (ndigits (a / b) - 1 + 1)%Z with (ndigits (a / b)) by lia. rewrite <- !p10_IZR by lia. split.
    + apply le_div; auto. rewrite <- mult_IZR. apply IZR_le. nia.
    + apply div_lt; auto. rewrite <- mult_IZR. apply IZR_lt. nia.
  - set (c := ((b + a - 1) / a - 1)%Z). assert (C : c = ((b - 1) / a)%Z). { unfold c. replace (b + a - 1)%Z with (b - 1 + 1 * a)%Z by lia. rewrite Z.div_add by lia. lia. }
    assert (Q : (1 <= c)%Z) by (rewrite C; apply Z.div_le_lower_bound; lia). destruct (ndigits_ok _ Q) as (N & N1 & N2).
    pose proof (Z.div_mod (b - 1) a ltac:(lia)) as D1. pose proof (Z.mod_pos_bound (b - 1) a A) as D2. rewrite <- C in D1.
    set (k := ndigits c) in *. split.
    + apply le_div; auto. rewrite p10_inv. apply Rmult_le_reg_l with (p10 k); [apply p10_pos|]. rewrite <- Rmult_assoc, Rinv_r, Rmult_1_l by apply Rgt_not_eq, p10_pos.
      rewrite <- p10_IZR, <- mult_IZR by lia. apply IZR_le. nia.
    + apply div_lt; auto. replace (- k + 1)%Z with (- (k - 1))%Z by lia. rewrite p10_inv. apply Rmult_lt_reg_l with (p10 (k - 1)); [apply p10_pos|].
      rewrite <- Rmult_assoc, Rinv_r, Rmult_1_l by apply Rgt_not_eq, p10_pos. rewrite <- p10_IZR, <- mult_IZR by lia. apply IZR_lt. nia.
Qed.
Lemma near_int_ok a b : (0 < b)%Z -> Rabs (IZR (near_int a b) - IZR a / IZR b) <= / 2.
Proof.
  intros B. assert (Br : 0 < IZR b) by now apply IZR_lt. pose proof (Z.div_mod a b ltac:(lia)) as D. pose proof (Z.mod_pos_bound a b B) as M. unfold near_int.
  set (q := (a / b)%Z) in *. set (r := (a mod b)%Z) in *. clearbody q r.
  assert (G : forall k : Z, (- b <= 2 * (k * b - a) <= b)%Z -> Rabs (IZR k - IZR a / IZR b) <= / 2).
  { intros k [K1 K2]. apply IZR_le in K1, K2. rewrite opp_IZR, mult_IZR, minus_IZR, mult_IZR in K1. rewrite mult_IZR, minus_IZR, mult_IZR in K2.
    replace (IZR k - IZR a / IZR b) with ((IZR k * IZR b - IZR a) / IZR b) by (field; lra). apply Rabs_le. split.
    - apply le_div; auto. lra.
    - apply Rmult_le_reg_r with (IZR b); auto. unfold Rdiv. rewrite Rmult_assoc, Rinv_l by lra. lra. }
  destruct (Z.ltb_spec (2 * r) b); [apply G; nia|]. destruct (Z.ltb_spec b (2 * r)); [apply G; nia|]. destruct (Z.even q); apply G; nia.
Qed.
Lemma near_int_unique a b k : (0 < b)%Z -> Rabs (IZR a / IZR b - IZR k) < / 2 -> near_int a b = k.
Proof.
  intros B K. pose proof (near_int_ok a b B) as N. assert (E : Rabs (IZR (near_int a b - k)) < 1).
  { rewrite minus_IZR. replace (IZR (near_int a b) - IZR k) with ((IZR (near_int a b) - IZR a / IZR b) + (IZR a / IZR b - IZR k)) by ring. eapply Rle_lt_trans; [apply Rabs_triang|]. lra. }
  rewrite <- abs_IZR in E. apply lt_IZR in E. lia.
Qed.
(** the scaled fraction is the value times a power of ten *)
Lemma scaled a b sh : (0 < b)%Z -> (0 < b * 10 ^ Z.max (- sh) 0)%Z /\ IZR (a * 10 ^ Z.max sh 0) / IZR (b * 10 ^ Z.max (- sh) 0) = IZR a / IZR b * p10 sh.
Proof.
  intros B. assert (P : (0 < 10 ^ Z.max (- sh) 0)%Z) by (apply Z.pow_pos_nonneg; lia). split; [now apply Z.mul_pos_pos|].
  pose proof (fraction_value 1 sh) as F. rewrite Z.mul_1_l in F. apply IZR_lt in B, P. rewrite !mult_IZR. rewrite <- (Rmult_1_l (p10 sh)), <- F. field. lra.
Qed.
Lemma to_decimal_ok prec a b : (1 <= prec)%nat -> (0 < a)%Z -> (0 < b)%Z -> let v := IZR a / IZR b in
  exists d x x0, to_decimal prec a b = (d, x) /\ (10 ^ (Z.of_nat prec - 1) <= d < 10 ^ Z.of_nat prec)%Z /\ p10 x0 <= v < p10 (x0 + 1) /\
  Rabs (IZR d * p10 (x - Z.of_nat prec + 1) - v) <= / 2 * p10 (x0 - Z.of_nat prec + 1).
Proof.
  intros P A B v. pose proof (first_exp_ok a b A B) as [F1 F2]. fold v in F1, F2. unfold to_decimal. set (x0 := first_exp a b) in *. clearbody x0.
  set (p := Z.of_nat prec) in *. set (sh := (p - 1 - x0)%Z). destruct (scaled a b sh B) as [Bp Sc]. fold v in Sc. pose proof (near_int_ok (a * 10 ^ Z.max sh 0) _ Bp) as Nr. rewrite Sc in Nr.
  set (n := near_int _ _) in *. clearbody n. assert (Hp : (1 <= p)%Z) by lia. pose proof (p10_pos sh) as Ps.
  assert (L : (10 ^ (p - 1) <= n)%Z).
  { apply Znot_gt_le. intros G. assert (n + 1 <= 10 ^ (p - 1))%Z as G' by lia. apply IZR_le in G'. rewrite plus_IZR, p10_IZR in G' by lia.
    assert (p10 (p - 1) <= v * p10 sh). { replace (p - 1)%Z with (x0 + sh)%Z by (unfold sh; lia). rewrite p10_plus. apply Rmult_le_compat_r; lra. }
    apply Rabs_le_inv in Nr. lra. }
  assert (U : (n <= 10 ^ p)%Z).
  { apply Znot_gt_le. intros G. assert (10 ^ p + 1 <= n)%Z as G' by lia. apply IZR_le in G'. rewrite plus_IZR, p10_IZR in G' by lia.
    assert (v * p10 sh < p10 p). { replace p with (x0 + 1 + sh)%Z by (unfold sh; lia). rewrite p10_plus. apply Rmult_lt_compat_r; lra. }
    apply Rabs_le_inv in Nr. lra. }
  assert (E : Rabs (IZR n * p10 (- sh) - v) <= / 2 * p10 (- sh)).
  { replace (IZR n * p10 (- sh) - v) with ((IZR n - v * p10 sh) * p10 (- sh)).
    - rewrite Rabs_mult, (Rabs_pos_eq (p10 (- sh))) by apply Rlt_le, p10_pos. apply Rmult_le_compat_r; [apply Rlt_le, p10_pos|exact Nr].
    - rewrite p10_inv. field. lra. }
  destruct (Z.eqb_spec n (10 ^ p)) as [C|C].
  - exists (10 ^ (p - 1))%Z, (x0 + 1)%Z, x0. split; auto. split; [split; [lia|apply Z.pow_lt_mono_r; lia]|]. split; auto.
    replace (x0 - p + 1)%Z with (- sh)%Z by (unfold sh; lia). rewrite C, p10_IZR in E by lia. rewrite p10_IZR by lia.
    replace (p10 (p - 1) * p10 (x0 + 1 - p + 1)) with (p10 p * p10 (- sh)); [exact E|]. rewrite <- !p10_plus. f_equal. unfold sh. lia.
  - exists n, x0, x0. split; auto. split; [lia|]. split; auto. replace (x0 - p + 1)%Z with (- sh)%Z by (unfold sh; lia). exact E.
Qed.
(** A value close enough to a decimal of the given length has that decimal. *)
Lemma to_decimal_unique prec a b d x t : (1 <= prec)%nat -> (0 < a)%Z -> (0 < b)%Z -> (10 ^ (Z.of_nat prec - 1) <= d < 10 ^ Z.of_nat prec)%Z ->
  0 <= t -> t * p10 (Z.of_nat prec) < / 2 -> let w := IZR d * p10 (x - Z.of_nat prec + 1) in Rabs (IZR a / IZR b - w) <= t * w -> to_decimal prec a b = (d, x).
Proof.
  intros P A B D T0 T1 w C. set (v := IZR a / IZR b) in *. pose proof (first_exp_ok a b A B) as [F1 F2]. fold v in F1, F2. unfold to_decimal. set (x0 := first_exp a b) in *. clearbody x0.
  set (p := Z.of_nat prec) in *. assert (Hp : (1 <= p)%Z) by lia. set (g := p10 (x - p + 1)) in *. assert (G : 0 < g) by apply p10_pos.
  assert (D1 : p10 (p - 1) <= IZR d) by (rewrite <- p10_IZR by lia; apply IZR_le; lia). assert (D2 : IZR d <= p10 p - 1) by (rewrite <- p10_IZR by lia; rewrite <- minus_IZR; apply IZR_le; lia).
  assert (Gx : p10 (p - 1) * g = p10 x). { unfold g. rewrite <- p10_plus. f_equal. lia. }
  assert (Gy : p10 p * g = p10 (x + 1)). { unfold g. rewrite <- p10_plus. f_equal. lia. }
  assert (Ten : p10 p = 10 * p10 (p - 1)). { replace p with (1 + (p - 1))%Z at 1 by lia. rewrite p10_plus. reflexivity. }
  assert (Tn : p10 x = 10 * p10 (x - 1)). { replace x with (1 + (x - 1))%Z at 1 by lia. rewrite p10_plus. reflexivity. }
  pose proof (p10_pos (p - 1)) as Pp. pose proof (p10_le 0 (p - 1) ltac:(lia)) as P1. rewrite p10_0 in P1.
  assert (Td : t * IZR d < / 2). { apply Rle_lt_trans with (t * p10 p); auto. apply Rmult_le_compat_l; lra. }
  assert (Tw : t * w < / 2 * g). { unfold w. rewrite <- Rmult_assoc. now apply Rmult_lt_compat_r. }
  pose proof (Rmult_le_compat_r g _ _ (Rlt_le _ _ G) D2) as W2. pose proof (Rmult_le_compat_r g _ _ (Rlt_le _ _ G) D1) as W1. rewrite Gx in W1. fold w in W1, W2.
  pose proof (Rabs_le_inv _ _ C) as [C1 C2].
  assert (V2 : v < p10 (x + 1)) by (rewrite <- Gy; lra).
  assert (X0 : (x0 <= x)%Z). { apply Znot_gt_le. intros K. pose proof (p10_le (x + 1) x0 ltac:(lia)). lra. }
  assert (V1 : p10 (x - 1) < v).
  { assert (t <= / 20). { assert (t * (10 * 1) <= t * p10 p); [apply Rmult_le_compat_l; lra|lra]. } assert (0 < w) by (pose proof (p10_pos x); lra).
    assert (t * w <= / 20 * w) by (apply Rmult_le_compat_r; lra). pose proof (p10_pos (x - 1)). lra. }
  assert (X1 : (x - 1 <= x0)%Z). { apply Znot_gt_le. intros K. pose proof (p10_le (x0 + 1) (x - 1) ltac:(lia)). lra. }
  set (sh := (p - 1 - x0)%Z). destruct (scaled a b sh B) as [Bp Sc]. fold v in Sc. assert (Ps : 0 < p10 sh) by apply p10_pos.
  assert (x0 = x \/ x0 = x - 1)%Z as [->| ->] by lia.
  - assert (Gs : g * p10 sh = 1). { unfold g, sh. rewrite <- p10_plus. replace (x - p + 1 + (p - 1 - x))%Z with 0%Z by lia. reflexivity. }
    rewrite (near_int_unique _ _ d Bp).
    + destruct (Z.eqb_spec d (10 ^ p)); [lia|reflexivity].
    + rewrite Sc. replace (v * p10 sh - IZR d) with ((v - w) * p10 sh) by (unfold w; replace (IZR d) with (IZR d * (g * p10 sh)) at 2 by (rewrite Gs; ring); ring).
      apply Rabs_def1; [replace (/ 2) with (/ 2 * g * p10 sh) by (rewrite Rmult_assoc, Gs; ring)|replace (- / 2) with (- / 2 * g * p10 sh) by (rewrite Rmult_assoc, Gs; ring)]; apply Rmult_lt_compat_r; lra.
  - assert (Gs : g * p10 sh = 10). { unfold g, sh. rewrite <- p10_plus. replace (x - p + 1 + (p - 1 - (x - 1)))%Z with 1%Z by lia. reflexivity. }
    assert (Dd : d = (10 ^ (p - 1))%Z).
    { apply Z.le_antisymm; [|lia]. apply Znot_gt_le. intros K. assert (10 ^ (p - 1) + 1 <= d)%Z as K' by lia. apply IZR_le in K'. rewrite plus_IZR, p10_IZR in K' by lia.
      pose proof (Rmult_le_compat_r g _ _ (Rlt_le _ _ G) K') as Q. rewrite Rmult_plus_distr_r, Gx in Q. replace (x - 1 + 1)%Z with x in F2 by lia. fold w in Q. lra. }
    rewrite (near_int_unique _ _ (10 ^ p)%Z Bp).
    + rewrite Z.eqb_refl. f_equal; [auto|lia].
    + rewrite Sc, p10_IZR by lia. assert (Dg : w = p10 x) by (unfold w; rewrite Dd, p10_IZR by lia; exact Gx).
      assert (Tx : t * w < / 20 * g). { rewrite Dg, <- Gx, <- Rmult_assoc. apply Rmult_lt_compat_r; auto. rewrite Ten in T1. lra. } rewrite Dg in C1, C2, Tx.
      replace (p10 p) with (p10 x * p10 sh) by (rewrite <- p10_plus; f_equal; unfold sh; lia). rewrite <- Rmult_minus_distr_r.
      apply Rabs_def1; [replace (/ 2) with (/ 20 * g * p10 sh) by (rewrite Rmult_assoc, Gs; lra)|replace (- / 2) with (- / 20 * g * p10 sh) by (rewrite Rmult_assoc, Gs; lra)]; apply Rmult_lt_compat_r; lra.
Qed.
