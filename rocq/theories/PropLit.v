(** C73: the numeric constants are the numbers nearest to what they are named after. *)
From Coq Require Import ZArith NArith Bool SpecFloat Reals Lia Lra.
From Flocq Require Import Core IEEE754.BinarySingleNaN.
From Verif Require Import Scalar LitModel LitProofs DecProofs DecProofs2 LitRound.
Local Open Scope R_scope.

(** c is a finite number of the format and no number of the format is nearer to v. *)
Definition nearest_in (prec emax : Z) (c : spec_float) (v : R) : Prop :=
  valid_binary prec emax c = true /\ is_finite_SF c = true /\
  forall x, valid_binary prec emax x = true -> is_finite_SF x = true -> Rabs (SF2R radix2 c - v) <= Rabs (SF2R radix2 x - v).
(** All constants of one format. *)
Definition all_nearest (prec emax : Z) (k : constants) : Prop :=
  nearest_in prec emax (k_pi k) PI /\ nearest_in prec emax (k_sqrt_pi k) (sqrt PI) /\ nearest_in prec emax (k_log_pi k) (ln PI) /\
  nearest_in prec emax (k_sqrt2 k) (sqrt 2) /\ nearest_in prec emax (k_sqrt3 k) (sqrt 3) /\ nearest_in prec emax (k_log2 k) (ln 2).

Lemma within_p10 v a : within v a -> IZR a * p10 (-52) <= v <= IZR (a + 1) * p10 (-52).
Proof. unfold within. rewrite ten52. change (p10 (-52)) with (p10 (Z.opp 52)). rewrite (p10_inv 52), <- (p10_IZR 52) by lia. exact (fun H => H). Qed.
Lemma within_nearest prec emax (Hp : Prec_gt_0 prec) (Hm : Prec_lt_emax prec emax) v a c : (0 < a)%Z -> (a < 10 ^ 53)%Z -> (5 <= emax)%Z -> within v a -> literal prec emax a (-52) = c -> literal prec emax (a + 1) (-52) = c -> nearest_in prec emax c v.
Proof.
  intros A0 A1 E4 W E E'. apply within_p10 in W. assert (P1 : (0 < prec)%Z) by exact Hp. assert (B : Rabs (rn prec emax (IZR (a + 1) * p10 (-52))) < bpow radix2 emax).
  { assert (T : 0 < p10 (-52)) by apply p10_pos. assert (A2 : 0 <= IZR (a + 1)) by (apply IZR_le; lia). assert (U : 0 <= IZR (a + 1) * p10 (-52)) by (apply Rmult_le_pos; lra).
    assert (F10 : IZR (a + 1) * p10 (-52) <= bpow radix2 4). { apply Rle_trans with (IZR (10 ^ 53) * p10 (-52)); [apply Rmult_le_compat_r; [lra|apply IZR_le; lia]|]. rewrite p10_IZR, <- p10_plus by lia. change (53 + -52)%Z with 1%Z. unfold p10, bpow, r10. change (Z.pow_pos radix2 4) with 16%Z. change (Z.pow_pos _ 1) with 10%Z. lra. }
    apply (rn_mono prec emax Hp 0) in U as U'. assert (R0 : rn prec emax 0 = 0) by (apply round_0; apply _). rewrite R0 in U'. rewrite Rabs_pos_eq by exact U'.
    apply (rn_mono prec emax Hp) in F10. assert (R4 : rn prec emax (bpow radix2 4) = bpow radix2 4). { apply round_generic; [apply _|]. apply generic_format_bpow. unfold SpecFloat.fexp, SpecFloat.emin. lia. }
    rewrite R4 in F10. eapply Rle_lt_trans; [exact F10|]. apply bpow_lt. lia. }
  destruct (around prec emax Hp Hm v a (a + 1) (-52) c A0 ltac:(lia) W B E E') as (V & F & S). split; [exact V|]. split; [exact F|]. intros x Vx _. rewrite S. now apply (rn_nearest prec emax Hp).
Qed.
#[local] Instance prec24 : Prec_gt_0 24 := eq_refl.
#[local] Instance emax128 : Prec_lt_emax 24 128 := eq_refl.
#[local] Instance prec53 : Prec_gt_0 53 := eq_refl.
#[local] Instance emax1024 : Prec_lt_emax 53 1024 := eq_refl.

(** For float and for double every constant is the number of that type nearest to its real value. *)
Theorem C73_nearest : all_nearest 53 1024 double_constants /\ all_nearest 24 128 float_constants.
Proof.
  split; (split; [|split; [|split; [|split; [|split]]]]).
  all: [> eapply (within_nearest _ _ _ _ PI) | eapply (within_nearest _ _ _ _ (sqrt PI)) | eapply (within_nearest _ _ _ _ (ln PI)) | eapply (within_nearest _ _ _ _ (sqrt 2)) | eapply (within_nearest _ _ _ _ (sqrt 3)) | eapply (within_nearest _ _ _ _ (ln 2))
          | eapply (within_nearest _ _ _ _ PI) | eapply (within_nearest _ _ _ _ (sqrt PI)) | eapply (within_nearest _ _ _ _ (ln PI)) | eapply (within_nearest _ _ _ _ (sqrt 2)) | eapply (within_nearest _ _ _ _ (sqrt 3)) | eapply (within_nearest _ _ _ _ (ln 2))];
    lazymatch goal with
    | |- within PI _ => apply pi_within | |- within (sqrt PI) _ => apply sqrt_pi_within | |- within (ln PI) _ => apply log_pi_within
    | |- within (sqrt 2) _ => apply sqrt2_within | |- within (sqrt 3) _ => apply sqrt3_within | |- within (ln 2) _ => apply log2_within | |- _ => idtac end;
    vm_compute; first [reflexivity | discriminate].
Qed.
Print Assumptions C73_nearest.
(** The literals themselves have fifty decimals and are within three units of the last of them. *)
Theorem C73_digits : forall n v, (n, v) = (pi_digits, PI) \/ (n, v) = (sqrt_pi_digits, sqrt PI) \/ (n, v) = (log_pi_digits, ln PI) \/ (n, v) = (sqrt2_digits, sqrt 2) \/ (n, v) = (sqrt3_digits, sqrt 3) \/ (n, v) = (log2_digits, ln 2) ->
  Rabs (IZR n / 10 ^ 50 - v) <= 3 / 10 ^ 50.
Proof.
  assert (G : forall n v a, within v a -> (0 <= a - 100 * n < 300)%Z -> Rabs (IZR n / 10 ^ 50 - v) <= 3 / 10 ^ 50).
  { intros n v a [L H] [A0 A1]. assert (Z1 : (a + 1 <= 100 * n + 300)%Z) by lia. apply IZR_le in A0, Z1. rewrite minus_IZR, mult_IZR in A0. rewrite (plus_IZR (100 * n)), mult_IZR in Z1.
    assert (T : (10:R) ^ 52 = 100 * 10 ^ 50) by (change 52%nat with (2 + 50)%nat; rewrite pow_add; ring). rewrite T in L, H. assert (P : 0 < (10:R) ^ 50) by (apply pow_lt; lra). set (t := (10:R) ^ 50) in *. clearbody t.
    assert (Lv : IZR a <= v * (100 * t)). { apply (Rmult_le_compat_r (100 * t)) in L; [|lra]. replace (IZR a / (100 * t) * (100 * t)) with (IZR a) in L by (field; lra). exact L. }
    assert (Hv : v * (100 * t) <= IZR (a + 1)). { apply (Rmult_le_compat_r (100 * t)) in H; [|lra]. replace (IZR (a + 1) / (100 * t) * (100 * t)) with (IZR (a + 1)) in H by (field; lra). exact H. }
    apply Rabs_le. split; apply Rmult_le_reg_r with (100 * t); try lra; rewrite ?Rmult_minus_distr_r; replace (IZR n / t * (100 * t)) with (100 * IZR n) by (field; lra); [replace (- (3 / t) * (100 * t)) with (-300) by (field; lra)|replace (3 / t * (100 * t)) with 300 by (field; lra)]; lra. }
  intros n v [E|[E|[E|[E|[E|E]]]]]; injection E as -> ->; [apply (G _ _ _ pi_within)|apply (G _ _ _ sqrt_pi_within)|apply (G _ _ _ log_pi_within)|apply (G _ _ _ sqrt2_within)|apply (G _ _ _ sqrt3_within)|apply (G _ _ _ log2_within)]; unfold pi_digits, sqrt_pi_digits, log_pi_digits, sqrt2_digits, sqrt3_digits, log2_digits; lia.
Qed.
Print Assumptions C73_digits.
(** More exactly: cut after the fiftieth decimal, the numbers exceed the literals by so many units of that decimal. *)
Theorem C73_last_digit : forall n v d, (n, v, d) = (pi_digits, PI, 2%Z) \/ (n, v, d) = (sqrt_pi_digits, sqrt PI, 1%Z) \/ (n, v, d) = (log_pi_digits, ln PI, 1%Z) \/ (n, v, d) = (sqrt2_digits, sqrt 2, 1%Z) \/ (n, v, d) = (sqrt3_digits, sqrt 3, 1%Z) \/ (n, v, d) = (log2_digits, ln 2, 0%Z) ->
  IZR (n + d) <= v * 10 ^ 50 < IZR (n + d + 1).
Proof.
  assert (G : forall n v d a, within v a -> (100 * (n + d) <= a /\ a + 1 < 100 * (n + d + 1))%Z -> IZR (n + d) <= v * 10 ^ 50 < IZR (n + d + 1)).
  { intros n v d a [L H] [A0 A1]. apply IZR_le in A0. apply IZR_lt in A1. rewrite mult_IZR in A0. rewrite (mult_IZR 100) in A1.
    assert (T : (10:R) ^ 52 = 100 * 10 ^ 50) by (change 52%nat with (2 + 50)%nat; rewrite pow_add; ring). rewrite T in L, H. assert (P : 0 < (10:R) ^ 50) by (apply pow_lt; lra). set (t := (10:R) ^ 50) in *. clearbody t.
    assert (Lv : IZR a <= v * (100 * t)). { apply (Rmult_le_compat_r (100 * t)) in L; [|lra]. replace (IZR a / (100 * t) * (100 * t)) with (IZR a) in L by (field; lra). exact L. }
    assert (Hv : v * (100 * t) <= IZR (a + 1)). { apply (Rmult_le_compat_r (100 * t)) in H; [|lra]. replace (IZR (a + 1) / (100 * t) * (100 * t)) with (IZR (a + 1)) in H by (field; lra). exact H. }
    split; lra. }
  intros n v d [E|[E|[E|[E|[E|E]]]]]; injection E as -> -> ->; [apply (G _ _ _ _ pi_within)|apply (G _ _ _ _ sqrt_pi_within)|apply (G _ _ _ _ log_pi_within)|apply (G _ _ _ _ sqrt2_within)|apply (G _ _ _ _ sqrt3_within)|apply (G _ _ _ _ log2_within)]; unfold pi_digits, sqrt_pi_digits, log_pi_digits, sqrt2_digits, sqrt3_digits, log2_digits; lia.
Qed.
Print Assumptions C73_last_digit.
(** The tolerance is 30 times the gap after 1, without rounding; the constants the rest of the model uses are these. *)
Theorem C73_epsilon : SF2R radix2 (k_epsilon double_constants) = 30 * bpow radix2 (-52) /\ SF2R radix2 (k_epsilon float_constants) = 30 * bpow radix2 (-23) /\
  forall m, npi (Num := B64 m) = k_pi double_constants /\ nsqrt2 (Num := B64 m) = k_sqrt2 double_constants /\ nsqrt3 (Num := B64 m) = k_sqrt3 double_constants /\ neps (Num := B64 m) = k_epsilon double_constants.
Proof.
  split; [|split].
  - assert (E : k_epsilon double_constants = S754_finite false 8444249301319680 (-100)) by (vm_compute; reflexivity). rewrite E. unfold SF2R, F2R. cbn [Fnum Fexp cond_Zopp]. change (-52)%Z with (48 + -100)%Z. rewrite bpow_plus. unfold bpow at 2. change (Z.pow_pos radix2 48) with 281474976710656%Z. lra.
  - assert (E : k_epsilon float_constants = S754_finite false 15728640 (-42)) by (vm_compute; reflexivity). rewrite E. unfold SF2R, F2R. cbn [Fnum Fexp cond_Zopp]. change (-23)%Z with (19 + -42)%Z. rewrite bpow_plus. unfold bpow at 2. change (Z.pow_pos radix2 19) with 524288%Z. lra.
  - intros m. repeat split; vm_compute; reflexivity.
Qed.
Print Assumptions C73_epsilon.
(** Concrete values: pi as a double and as a float. *)
Example C73_values : k_pi double_constants = S754_finite false 7074237752028440 (-51) /\ k_pi float_constants = S754_finite false 13176795 (-22) /\ k_log2 float_constants = S754_finite false 11629080 (-24).
Proof. repeat split; vm_compute; reflexivity. Qed.
