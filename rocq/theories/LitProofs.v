(** Decimal enclosures of pi, ln pi, ln 2 and the roots, and the numbers nearest to them. *)
From Coq Require Import ZArith NArith Bool SpecFloat Reals Lia Lra Machin.
From Flocq Require Import Core IEEE754.BinarySingleNaN.
From Verif Require Import Scalar LitModel.
Local Open Scope R_scope.

(** ** Alternating sums in integers *)
(** sum of (-1)^n (2/3^(2n+1) + 1/7^(2n+1)) / (2n+1): numerator, denominator, and the odd numbers multiplied up *)
Fixpoint pi_sum (n : nat) : Z * Z * Z :=
  match n with
  | O => (17, 21, 1)%Z
  | S n => let '(t, d, o) := pi_sum n in let k := (2 * Z.of_nat n + 3)%Z in
      ((t * (441 * k) + (if Z.even (Z.of_nat n) then - (2 * 7 ^ k + 3 ^ k) else 2 * 7 ^ k + 3 ^ k) * o), d * (441 * k), o * k)%Z
  end.
Lemma pi_sum_ok n : let '(t, d, o) := pi_sum n in (0 < o)%Z /\ IZR d = 21 ^ (2 * n + 1) * IZR o /\ sum_f_R0 (tg_alt PI_2_3_7_tg) n = IZR t / IZR d.
Proof.
  induction n as [|n IH].
  - cbn [pi_sum]. split; [lia|]. split; [cbn [pow Nat.add Nat.mul]; lra|]. cbn [sum_f_R0]. unfold tg_alt, PI_2_3_7_tg, Ratan_seq. cbn [pow Nat.mul Nat.add INR]. field.
  - cbn [pi_sum]. destruct (pi_sum n) as [[t d] o]. destruct IH as (O & D & Su). set (k := (2 * Z.of_nat n + 3)%Z).
    assert (K : IZR k = INR (2 * S n + 1)) by (rewrite INR_IZR_INZ; f_equal; unfold k; lia). assert (Kp : 0 < IZR k) by (apply IZR_lt; unfold k; lia). assert (Op : 0 < IZR o) by now apply IZR_lt.
    split; [apply Z.mul_pos_pos; [exact O|unfold k; lia]|]. assert (P21 : (21:R) ^ (2 * n + 1) > 0) by (apply pow_lt; lra).
    split.
    + rewrite !mult_IZR, D. replace (2 * S n + 1)%nat with (2 + (2 * n + 1))%nat by lia. rewrite (pow_add 21 2). replace (21 ^ 2) with 441 by ring. ring.
    + cbn [sum_f_R0]. rewrite Su. unfold tg_alt at 1, PI_2_3_7_tg at 1, Ratan_seq. rewrite <- K.
      assert (P7 : IZR (7 ^ k) = 7 ^ (2 * S n + 1)). { rewrite <- (Z2Nat.id k) by (unfold k; lia). rewrite <- pow_IZR. f_equal. unfold k. lia. }
      assert (P3 : IZR (3 ^ k) = 3 ^ (2 * S n + 1)). { rewrite <- (Z2Nat.id k) by (unfold k; lia). rewrite <- pow_IZR. f_equal. unfold k. lia. }
      assert (Sg : IZR (if Z.even (Z.of_nat n) then - (2 * 7 ^ k + 3 ^ k) else 2 * 7 ^ k + 3 ^ k) = (-1) ^ S n * (2 * 7 ^ (2 * S n + 1) + 3 ^ (2 * S n + 1))).
      { rewrite <- P7, <- P3. destruct (Z.even (Z.of_nat n)) eqn:E.
        - apply Z.even_spec in E. destruct E as [j E]. assert (n = 2 * Z.to_nat j)%nat as En by lia. rewrite <- tech_pow_Rmult. rewrite En at 1. rewrite pow_1_even, opp_IZR, plus_IZR, mult_IZR. ring.
        - assert (Z.odd (Z.of_nat n) = true) as Od by (rewrite <- Z.negb_even, E; reflexivity). apply Z.odd_spec in Od. destruct Od as [j Ej]. assert (n = S (2 * Z.to_nat j)) as En by lia. rewrite En at 1. rewrite <- tech_pow_Rmult, pow_1_odd, plus_IZR, mult_IZR. ring. }
      rewrite !plus_IZR, !mult_IZR, Sg, D. rewrite !pow_inv. 
      assert (E21 : (21:R) ^ (2 * n + 1) * 441 = 3 ^ (2 * S n + 1) * 7 ^ (2 * S n + 1)). { replace (2 * S n + 1)%nat with (2 + (2 * n + 1))%nat by lia. rewrite <- Rpow_mult_distr. replace (3 * 7) with 21 by ring. rewrite (pow_add 21 2). replace (21 ^ 2) with 441 by ring. ring. }
      assert (Q3 : 0 < 3 ^ (2 * S n + 1)) by (apply pow_lt; lra). assert (Q7 : 0 < 7 ^ (2 * S n + 1)) by (apply pow_lt; lra).
      set (a3 := 3 ^ (2 * S n + 1)) in *. set (a7 := 7 ^ (2 * S n + 1)) in *. set (a21 := 21 ^ (2 * n + 1)) in *. set (sg := (-1) ^ S n). clearbody a3 a7 a21 sg.
      replace (IZR t / (a21 * IZR o) + sg * (2 * (/ a3 / IZR k) + / a7 / IZR k)) with (IZR t / (a21 * IZR o) + sg * ((2 * a7 + a3) / (a3 * a7) / IZR k)) by (field; lra).
      rewrite <- E21. field. repeat split; lra.
Qed.
Lemma pi_low : IZR 31415926535897932384626433832795028841971693993751058209 / 10 ^ 55 <= PI.
Proof.
  pose proof (proj1 (PI_2_3_7_ineq 60)) as P. change (S (2 * 60)) with 121%nat in P. pose proof (pi_sum_ok 121) as Su. destruct (pi_sum 121) as [[t d] o] eqn:E. destruct Su as (O & D & Su). rewrite Su in P.
  assert (C : (0 < d)%Z /\ (31415926535897932384626433832795028841971693993751058209 * d <= 4 * t * 10 ^ 55)%Z).
  { assert (B : (let '(t, d, _) := pi_sum 121 in (0 <? d) && (31415926535897932384626433832795028841971693993751058209 * d <=? 4 * t * 10 ^ 55))%Z = true) by (vm_compute; reflexivity).
    rewrite E in B. apply andb_prop in B. destruct B as [B1 B2]. split; [now apply Z.ltb_lt|now apply Z.leb_le]. }
  destruct C as [C1 C2]. apply IZR_lt in C1. apply IZR_le in C2. rewrite !mult_IZR in C2. change (10 ^ 55) with (10 ^ (Z.to_nat 55)). rewrite (pow_IZR 10). rewrite Z2Nat.id by lia. assert (T : 0 < IZR (10 ^ 55)) by (apply IZR_lt; reflexivity).
  apply Rle_trans with (4 * (IZR t / IZR d)); [|lra]. apply Rmult_le_reg_r with (IZR (10 ^ 55) * IZR d); [apply Rmult_lt_0_compat; auto|]. 
  replace (IZR 31415926535897932384626433832795028841971693993751058209 / IZR (10 ^ 55) * (IZR (10 ^ 55) * IZR d)) with (IZR 31415926535897932384626433832795028841971693993751058209 * IZR d) by (field; lra).
  replace (4 * (IZR t / IZR d) * (IZR (10 ^ 55) * IZR d)) with (4 * IZR t * IZR (10 ^ 55)) by (field; lra). exact C2.
Qed.
Lemma pi_high : PI <= IZR 31415926535897932384626433832795028841971693993751058210 / 10 ^ 55.
Proof.
  pose proof (proj2 (PI_2_3_7_ineq 60)) as P. change (2 * 60)%nat with 120%nat in P. pose proof (pi_sum_ok 120) as Su. destruct (pi_sum 120) as [[t d] o] eqn:E. destruct Su as (O & D & Su). rewrite Su in P.
  assert (C : (0 < d)%Z /\ (4 * t * 10 ^ 55 <= 31415926535897932384626433832795028841971693993751058210 * d)%Z).
  { assert (B : (let '(t, d, _) := pi_sum 120 in (0 <? d) && (4 * t * 10 ^ 55 <=? 31415926535897932384626433832795028841971693993751058210 * d))%Z = true) by (vm_compute; reflexivity).
    rewrite E in B. apply andb_prop in B. destruct B as [B1 B2]. split; [now apply Z.ltb_lt|now apply Z.leb_le]. }
  destruct C as [C1 C2]. apply IZR_lt in C1. apply IZR_le in C2. rewrite !mult_IZR in C2. change (10 ^ 55) with (10 ^ (Z.to_nat 55)). rewrite (pow_IZR 10). rewrite Z2Nat.id by lia. assert (T : 0 < IZR (10 ^ 55)) by (apply IZR_lt; reflexivity).
  apply Rle_trans with (4 * (IZR t / IZR d)); [lra|]. apply Rmult_le_reg_r with (IZR (10 ^ 55) * IZR d); [apply Rmult_lt_0_compat; auto|]. 
  replace (IZR 31415926535897932384626433832795028841971693993751058210 / IZR (10 ^ 55) * (IZR (10 ^ 55) * IZR d)) with (IZR 31415926535897932384626433832795028841971693993751058210 * IZR d) by (field; lra).
  replace (4 * (IZR t / IZR d) * (IZR (10 ^ 55) * IZR d)) with (4 * IZR t * IZR (10 ^ 55)) by (field; lra). exact C2.
Qed.

(** sum of (-a/q)^n / n!: numerator, denominator and a^n *)
Fixpoint exp_sum (a q : Z) (n : nat) : Z * Z * Z :=
  match n with
  | O => (1, 1, 1)%Z
  | S n => let '(t, d, p) := exp_sum a q n in let k := (q * Z.of_nat (S n))%Z in let p' := (a * p)%Z in (t * k + (if Z.even (Z.of_nat n) then - p' else p'), d * k, p')%Z
  end.
Definition exp_terms (x : R) (n : nat) : R := x ^ n / INR (fact n).
Lemma sign_cases n (y : Z) : IZR (if Z.even (Z.of_nat n) then - y else y) = (-1) ^ S n * IZR y.
Proof.
  destruct (Z.even (Z.of_nat n)) eqn:E.
  - apply Z.even_spec in E. destruct E as [j E]. assert (n = 2 * Z.to_nat j)%nat as En by lia. rewrite <- tech_pow_Rmult. rewrite En at 1. rewrite pow_1_even, opp_IZR. ring.
  - assert (Z.odd (Z.of_nat n) = true) as Od by (rewrite <- Z.negb_even, E; reflexivity). apply Z.odd_spec in Od. destruct Od as [j Ej]. assert (n = S (2 * Z.to_nat j)) as En by lia. rewrite En at 1. rewrite <- tech_pow_Rmult, pow_1_odd. ring.
Qed.
Lemma exp_sum_ok a q n : (0 < q)%Z -> let '(t, d, p) := exp_sum a q n in IZR p = IZR a ^ n /\ IZR d = IZR q ^ n * INR (fact n) /\ sum_f_R0 (tg_alt (exp_terms (IZR a / IZR q))) n = IZR t / IZR d.
Proof.
  intros Q. assert (Qr : 0 < IZR q) by now apply IZR_lt. induction n as [|n IH].
  - cbn [exp_sum sum_f_R0]. split; [reflexivity|]. split; [cbn [pow fact INR]; ring|]. unfold tg_alt, exp_terms. cbn [pow fact INR]. field.
  - cbn [exp_sum]. destruct (exp_sum a q n) as [[t d] p]. destruct IH as (Pp & D & Su). assert (Fp : 0 < INR (fact n)) by apply INR_fact_lt_0. assert (Np : 0 < INR (S n)) by (apply lt_0_INR; lia).
    assert (Qn : 0 < IZR q ^ n) by now apply pow_lt.
    rewrite plus_IZR, sign_cases, !mult_IZR, Pp, D, <- INR_IZR_INZ, fact_simpl, mult_INR. split; [reflexivity|]. split; [cbn [pow]; ring|].
    cbn [sum_f_R0]. rewrite Su, D. unfold tg_alt at 1, exp_terms. rewrite fact_simpl, mult_INR. change (IZR a * IZR a ^ n) with (IZR a ^ S n).
    assert (Pw : (IZR a / IZR q) ^ S n = IZR a ^ S n / IZR q ^ S n) by (unfold Rdiv; rewrite Rpow_mult_distr, pow_inv; reflexivity). rewrite Pw, <- (tech_pow_Rmult (IZR q)). set (sg := (-1) ^ S n). clearbody sg. set (aa := IZR a ^ S n). clearbody aa. field. repeat split; lra.
Qed.
Lemma exp_bounds x N : 0 <= x <= 1 -> sum_f_R0 (tg_alt (exp_terms x)) (S (2 * N)) <= exp (- x) <= sum_f_R0 (tg_alt (exp_terms x)) (2 * N).
Proof.
  intros [X0 X1]. apply alternated_series_ineq.
  - intros n. unfold exp_terms. rewrite fact_simpl, mult_INR. cbn [pow]. assert (Fp : 0 < INR (fact n)) by apply INR_fact_lt_0. assert (Np : 1 <= INR (S n)) by (change 1 with (INR 1); apply le_INR; lia). assert (P : 0 <= x ^ n) by now apply pow_le.
    apply Rmult_le_reg_r with (INR (S n) * INR (fact n)); [apply Rmult_lt_0_compat; lra|]. replace (x * x ^ n / (INR (S n) * INR (fact n)) * (INR (S n) * INR (fact n))) with (x * x ^ n) by (field; lra).
    replace (x ^ n / INR (fact n) * (INR (S n) * INR (fact n))) with (INR (S n) * x ^ n) by (field; lra). apply Rmult_le_compat_r; lra.
  - apply cv_speed_pow_fact.
  - unfold exp. destruct (exist_exp (- x)) as [l L]. cbn [proj1_sig]. intros eps E. destruct (L eps E) as [N0 H]. exists N0. intros n Hn. specialize (H n Hn).
    rewrite (sum_eq _ (fun i => / INR (fact i) * (- x) ^ i)); [exact H|]. intros i Hi. unfold tg_alt, exp_terms. replace (- x) with ((-1) * x) by ring. rewrite Rpow_mult_distr. unfold Rdiv. ring.
Qed.
(** a decimal below or above minus the logarithm of u^2 or of u, for a rational u *)
Lemma exp_low a q u v N : (0 < q)%Z -> (0 <= a <= q)%Z -> (0 < v)%Z -> (let '(t, d, _) := exp_sum a q (S (2 * N)) in (0 <? d) && (u * d <=? t * v))%Z = true -> IZR u / IZR v <= exp (- (IZR a / IZR q)).
Proof.
  intros Q [A0 A1] V B. pose proof (exp_sum_ok a q (S (2 * N)) Q) as S. assert (X : 0 <= IZR a / IZR q <= 1).
  { apply IZR_lt in Q. apply IZR_le in A0, A1. split; [apply Rmult_le_pos; [lra|left; now apply Rinv_0_lt_compat]|]. apply Rmult_le_reg_r with (IZR q); auto. replace (IZR a / IZR q * IZR q) with (IZR a) by (field; lra). lra. }
  pose proof (proj1 (exp_bounds _ N X)) as P. destruct (exp_sum a q _) as [[t d] p]. destruct S as (_ & _ & Su). rewrite Su in P. apply andb_prop in B. destruct B as [B1 B2]. apply Z.ltb_lt, IZR_lt in B1. apply Z.leb_le, IZR_le in B2. rewrite !mult_IZR in B2. apply IZR_lt in V.
  eapply Rle_trans; [|exact P]. apply Rmult_le_reg_r with (IZR v * IZR d); [now apply Rmult_lt_0_compat|]. replace (IZR u / IZR v * (IZR v * IZR d)) with (IZR u * IZR d) by (field; lra). replace (IZR t / IZR d * (IZR v * IZR d)) with (IZR t * IZR v) by (field; lra). exact B2.
Qed.
Lemma exp_high a q u v N : (0 < q)%Z -> (0 <= a <= q)%Z -> (0 < v)%Z -> (let '(t, d, _) := exp_sum a q (2 * N) in (0 <? d) && (t * v <=? u * d))%Z = true -> exp (- (IZR a / IZR q)) <= IZR u / IZR v.
Proof.
  intros Q [A0 A1] V B. pose proof (exp_sum_ok a q (2 * N) Q) as S. assert (X : 0 <= IZR a / IZR q <= 1).
  { apply IZR_lt in Q. apply IZR_le in A0, A1. split; [apply Rmult_le_pos; [lra|left; now apply Rinv_0_lt_compat]|]. apply Rmult_le_reg_r with (IZR q); auto. replace (IZR a / IZR q * IZR q) with (IZR a) by (field; lra). lra. }
  pose proof (proj2 (exp_bounds _ N X)) as P. destruct (exp_sum a q _) as [[t d] p]. destruct S as (_ & _ & Su). rewrite Su in P. apply andb_prop in B. destruct B as [B1 B2]. apply Z.ltb_lt, IZR_lt in B1. apply Z.leb_le, IZR_le in B2. rewrite !mult_IZR in B2. apply IZR_lt in V.
  eapply Rle_trans; [exact P|]. apply Rmult_le_reg_r with (IZR v * IZR d); [now apply Rmult_lt_0_compat|]. replace (IZR u / IZR v * (IZR v * IZR d)) with (IZR u * IZR d) by (field; lra). replace (IZR t / IZR d * (IZR v * IZR d)) with (IZR t * IZR v) by (field; lra). exact B2.
Qed.

(** ** The constants to 52 decimals *)
Definition within (v : R) (a : Z) : Prop := IZR a / 10 ^ 52 <= v <= IZR (a + 1) / 10 ^ 52.
Lemma ten52 : (10:R) ^ 52 = IZR (10 ^ 52).
Proof. change (10 ^ 52) with (10 ^ Z.to_nat 52). rewrite (pow_IZR 10), Z2Nat.id by lia. reflexivity. Qed.
Lemma ten55 : (10:R) ^ 55 = 1000 * IZR (10 ^ 52).
Proof. rewrite <- ten52. change 55%nat with (3 + 52)%nat. rewrite pow_add. ring. Qed.
Lemma t52 : 0 < IZR (10 ^ 52).
Proof. apply IZR_lt. reflexivity. Qed.
Lemma pi_within : within PI 31415926535897932384626433832795028841971693993751058.
Proof.
  pose proof pi_low as L. pose proof pi_high as H. rewrite ten55 in L, H. unfold within. rewrite ten52. pose proof t52 as T. set (tt := IZR (10 ^ 52)) in *. clearbody tt. split.
  - eapply Rle_trans; [|exact L]. apply Rmult_le_reg_r with (1000 * tt); [lra|]. unfold Rdiv. rewrite !Rmult_assoc. replace (/ tt * (1000 * tt)) with 1000 by (field; lra). replace (/ (1000 * tt) * (1000 * tt)) with 1 by (field; lra). lra.
  - eapply Rle_trans; [exact H|]. apply Rmult_le_reg_r with (1000 * tt); [lra|]. unfold Rdiv. rewrite !Rmult_assoc. replace (/ tt * (1000 * tt)) with 1000 by (field; lra). replace (/ (1000 * tt) * (1000 * tt)) with 1 by (field; lra). 
    change (31415926535897932384626433832795028841971693993751058 + 1)%Z with 31415926535897932384626433832795028841971693993751059%Z. lra.
Qed.
Lemma div52 a : IZR a / 10 ^ 52 * IZR (10 ^ 52) = IZR a.
Proof. rewrite ten52. pose proof t52. field. lra. Qed.
Lemma sqrt_within (v : R) a : (0 <= a)%Z -> IZR a * IZR a <= v * (IZR (10 ^ 52) * IZR (10 ^ 52)) <= IZR (a + 1) * IZR (a + 1) -> within (sqrt v) a.
Proof.
  intros A [L H]. pose proof t52 as T. apply IZR_le in A. assert (TT : 0 < IZR (10 ^ 52) * IZR (10 ^ 52)) by now apply Rmult_lt_0_compat.
  assert (V : 0 <= v). { apply Rmult_le_reg_r with (IZR (10 ^ 52) * IZR (10 ^ 52)); auto. rewrite Rmult_0_l. eapply Rle_trans; [|exact L]. apply Rle_0_sqr. }
  assert (E : sqrt v * IZR (10 ^ 52) = sqrt (v * (IZR (10 ^ 52) * IZR (10 ^ 52)))). { rewrite sqrt_mult by lra. rewrite sqrt_square by lra. reflexivity. }
  split; (apply Rmult_le_reg_r with (IZR (10 ^ 52)); [exact T|]); rewrite div52, E.
  - rewrite <- (sqrt_square (IZR a)) by exact A. now apply sqrt_le_1_alt.
  - rewrite <- (sqrt_square (IZR (a + 1))) by (rewrite plus_IZR; lra). now apply sqrt_le_1_alt.
Qed.
Lemma sqrt2_within : within (sqrt 2) 14142135623730950488016887242096980785696718753769480.
Proof. apply sqrt_within; [lia|]. rewrite <- !mult_IZR. split; apply IZR_le; vm_compute; discriminate. Qed.
Lemma sqrt3_within : within (sqrt 3) 17320508075688772935274463415058723669428052538103806.
Proof. apply sqrt_within; [lia|]. rewrite <- !mult_IZR. split; apply IZR_le; vm_compute; discriminate. Qed.
Lemma pi_scaled : IZR 31415926535897932384626433832795028841971693993751058 <= PI * IZR (10 ^ 52) <= IZR 31415926535897932384626433832795028841971693993751059.
Proof. destruct pi_within as [L H]. pose proof t52 as T. apply (Rmult_le_compat_r (IZR (10 ^ 52))) in L, H; try lra. rewrite div52 in L, H. split; [exact L|exact H]. Qed.
Lemma sqrt_pi_within : within (sqrt PI) 17724538509055160272981674833411451827975494561223871.
Proof.
  apply sqrt_within; [lia|]. pose proof pi_scaled as [L H]. pose proof t52 as T. apply (Rmult_le_compat_r (IZR (10 ^ 52))) in L, H; try lra. rewrite <- !mult_IZR in L, H. rewrite Rmult_assoc, <- mult_IZR in L, H. rewrite <- !mult_IZR. split.
  - eapply Rle_trans; [|exact L]. apply IZR_le. vm_compute. discriminate.
  - eapply Rle_trans; [exact H|]. apply IZR_le. vm_compute. discriminate.
Qed.
Lemma ln_le x y : 0 < x -> x <= y -> ln x <= ln y.
Proof. intros X [L|<-]; [left; now apply ln_increasing|right; reflexivity]. Qed.
Lemma ln_le_exp y v : 0 < v -> / v <= exp (- y) -> y <= ln v.
Proof. intros V E. apply Ropp_le_cancel. rewrite <- ln_Rinv by exact V. rewrite <- (ln_exp (- y)). apply ln_le; [now apply Rinv_0_lt_compat|exact E]. Qed.
Lemma ln_ge_exp y v : 0 < v -> exp (- y) <= / v -> ln v <= y.
Proof. intros V E. apply Ropp_le_cancel. rewrite <- ln_Rinv by exact V. rewrite <- (ln_exp (- y)). apply ln_le; [apply exp_pos|exact E]. Qed.
Lemma log2_within : within (ln 2) 6931471805599453094172321214581765680755001343602552.
Proof.
  unfold within. rewrite ten52. split.
  - apply ln_le_exp; [lra|]. replace (/ 2) with (IZR 1 / IZR 2) by lra. apply (exp_low _ (10 ^ 52) 1 2 21); [lia|lia|lia|]. vm_compute. reflexivity.
  - apply ln_ge_exp; [lra|]. replace (/ 2) with (IZR 1 / IZR 2) by lra. apply (exp_high _ (10 ^ 52) 1 2 21); [lia|lia|lia|]. vm_compute. reflexivity.
Qed.
Lemma exp_half y : exp (- y) = exp (- (y / 2)) * exp (- (y / 2)).
Proof. rewrite <- exp_plus. f_equal. field. Qed.
Lemma half52 a : IZR a / IZR (10 ^ 52) / 2 = IZR a / IZR (2 * 10 ^ 52).
Proof. rewrite mult_IZR. pose proof t52. field. lra. Qed.
Lemma log_pi_within : within (ln PI) 11447298858494001741434273513530587116472948129153115.
Proof.
  unfold within. rewrite ten52. pose proof PI_RGT_0 as P0. pose proof pi_low as L. pose proof pi_high as H. pose proof t52 as T. rewrite ten55, <- mult_IZR in L, H. assert (T5 : 0 < IZR (1000 * 10 ^ 52)) by (apply IZR_lt; reflexivity).
  assert (T6 : 0 < IZR (10 ^ 60)) by (apply IZR_lt; reflexivity). split.
  - apply ln_le_exp; [exact P0|]. rewrite exp_half, half52.
    assert (X : IZR 564189583547756286948079451560772585844050629328998856850816 / IZR (10 ^ 60) <= exp (- (IZR 11447298858494001741434273513530587116472948129153115 / IZR (2 * 10 ^ 52)))).
    { apply (exp_low _ (2 * 10 ^ 52) _ _ 20); [lia|lia|lia|]. vm_compute. reflexivity. }
    eapply Rle_trans; [|apply Rmult_le_compat; [| |exact X|exact X]; left; apply Rdiv_lt_0_compat; auto; apply IZR_lt; reflexivity].
    apply Rmult_le_reg_l with PI; [exact P0|]. rewrite Rinv_r by lra.
    assert (Y : 1 <= IZR 31415926535897932384626433832795028841971693993751058209 / IZR (1000 * 10 ^ 52) * (IZR 564189583547756286948079451560772585844050629328998856850816 / IZR (10 ^ 60) * (IZR 564189583547756286948079451560772585844050629328998856850816 / IZR (10 ^ 60)))).
    { apply Rmult_le_reg_r with (IZR (1000 * 10 ^ 52) * (IZR (10 ^ 60) * IZR (10 ^ 60))); [apply Rmult_lt_0_compat; [exact T5|apply Rmult_lt_0_compat; exact T6]|].
      set (w := IZR 31415926535897932384626433832795028841971693993751058209) in *. set (ww := IZR 564189583547756286948079451560772585844050629328998856850816) in *. replace (w / IZR (1000 * 10 ^ 52) * (ww / IZR (10 ^ 60) * (ww / IZR (10 ^ 60))) * (IZR (1000 * 10 ^ 52) * (IZR (10 ^ 60) * IZR (10 ^ 60)))) with (w * (ww * ww)) by (field; split; lra).
      unfold w, ww. rewrite <- !mult_IZR. rewrite ?Rmult_1_l. apply IZR_le. vm_compute. discriminate. }
    eapply Rle_trans; [exact Y|]. apply Rmult_le_compat_r; [|exact L]. apply Rle_0_sqr.
  - apply ln_ge_exp; [exact P0|]. rewrite exp_half, half52.
    assert (X : exp (- (IZR (11447298858494001741434273513530587116472948129153115 + 1) / IZR (2 * 10 ^ 52))) <= IZR 564189583547756286948079451560772585844050629328998856841835 / IZR (10 ^ 60)).
    { apply (exp_high _ (2 * 10 ^ 52) _ _ 20); [lia|lia|lia|]. vm_compute. reflexivity. }
    eapply Rle_trans; [apply Rmult_le_compat; [left; apply exp_pos|left; apply exp_pos|exact X|exact X]|].
    apply Rmult_le_reg_l with PI; [exact P0|]. rewrite Rinv_r by lra.
    assert (Y : IZR 31415926535897932384626433832795028841971693993751058210 / IZR (1000 * 10 ^ 52) * (IZR 564189583547756286948079451560772585844050629328998856841835 / IZR (10 ^ 60) * (IZR 564189583547756286948079451560772585844050629328998856841835 / IZR (10 ^ 60))) <= 1).
    { apply Rmult_le_reg_r with (IZR (1000 * 10 ^ 52) * (IZR (10 ^ 60) * IZR (10 ^ 60))); [apply Rmult_lt_0_compat; [exact T5|apply Rmult_lt_0_compat; exact T6]|].
      set (w := IZR 31415926535897932384626433832795028841971693993751058210) in *. set (ww := IZR 564189583547756286948079451560772585844050629328998856841835) in *. replace (w / IZR (1000 * 10 ^ 52) * (ww / IZR (10 ^ 60) * (ww / IZR (10 ^ 60))) * (IZR (1000 * 10 ^ 52) * (IZR (10 ^ 60) * IZR (10 ^ 60)))) with (w * (ww * ww)) by (field; split; lra).
      unfold w, ww. rewrite <- !mult_IZR. rewrite ?Rmult_1_l. apply IZR_le. vm_compute. discriminate. }
    eapply Rle_trans; [|exact Y]. apply Rmult_le_compat_r; [|exact H]. apply Rle_0_sqr.
Qed.
