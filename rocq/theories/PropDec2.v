(** C69, continued: halfway cases go to the even digit, numbers too large are refused and every number read is finite. *)
From Coq Require Import ZArith NArith Bool Ascii String List SpecFloat Reals Lia Lra.
From Flocq Require Import Core IEEE754.BinarySingleNaN.
From Verif Require Import Base Scalar ConstSpec ConstModel VecModel B64Lib B64Ops RoundLib RoundSpec RoundProofs2 StreamModel StreamSpec StreamProofs DecModel DecSpec DecProofs DecProofs2 DecProofs3 PropDec OwnDouble.
Import ListNotations.
Local Open Scope R_scope.
Local Open Scope list_scope.

Lemma near_int_tie a b : (0 < b)%Z -> Rabs (IZR (near_int a b) - IZR a / IZR b) = / 2 -> Z.even (near_int a b) = true.
Proof.
  intros B T. assert (Br : 0 < IZR b) by now apply IZR_lt. pose proof (Z.div_mod a b ltac:(lia)) as D. pose proof (Z.mod_pos_bound a b B) as M. revert T. unfold near_int.
  set (q := (a / b)%Z) in *. set (r := (a mod b)%Z) in *. clearbody q r.
  assert (G : forall k : Z, (- b < 2 * (k * b - a) < b)%Z -> Rabs (IZR k - IZR a / IZR b) <> / 2).
  { intros k [K1 K2] E. apply IZR_lt in K1, K2. rewrite opp_IZR, mult_IZR, minus_IZR, mult_IZR in K1. rewrite mult_IZR, minus_IZR, mult_IZR in K2.
    assert (Y : (IZR k - IZR a / IZR b) * IZR b = IZR k * IZR b - IZR a) by (field; lra). unfold Rabs in E. destruct (Rcase_abs (IZR k - IZR a / IZR b)); [assert (Y2 : IZR k - IZR a / IZR b = - / 2) by lra|assert (Y2 : IZR k - IZR a / IZR b = / 2) by lra]; rewrite Y2 in Y; lra. }
  destruct (Z.ltb_spec (2 * r) b); [intros T; exfalso; revert T; apply G; nia|]. destruct (Z.ltb_spec b (2 * r)); [intros T; exfalso; revert T; apply G; nia|].
  intros _. destruct (Z.even q) eqn:E; [exact E|]. rewrite Z.even_add, E. reflexivity.
Qed.
Lemma to_decimal_tie prec a b : (1 <= prec)%nat -> (0 < a)%Z -> (0 < b)%Z -> let v := IZR a / IZR b in let d := fst (to_decimal prec a b) in let k := snd (to_decimal prec a b) in
  exists x0 n, p10 x0 <= v < p10 (x0 + 1) /\ IZR d * p10 (k - Z.of_nat prec + 1) = IZR n * p10 (x0 - Z.of_nat prec + 1) /\
  Rabs (IZR n * p10 (x0 - Z.of_nat prec + 1) - v) <= / 2 * p10 (x0 - Z.of_nat prec + 1) /\ (Rabs (IZR n * p10 (x0 - Z.of_nat prec + 1) - v) = / 2 * p10 (x0 - Z.of_nat prec + 1) -> Z.even n = true).
Proof.
  intros P A B v d k. pose proof (first_exp_ok a b A B) as F. fold v in F. exists (first_exp a b). set (p := Z.of_nat prec) in *. set (sh := (p - 1 - first_exp a b)%Z).
  destruct (scaled a b sh B) as [Bp Sc]. fold v in Sc. pose proof (near_int_ok (a * 10 ^ Z.max sh 0) _ Bp) as Nr. pose proof (near_int_tie (a * 10 ^ Z.max sh 0) _ Bp) as Nt. rewrite Sc in Nr, Nt.
  exists (near_int (a * 10 ^ Z.max sh 0) (b * 10 ^ Z.max (- sh) 0)). unfold d, k, to_decimal. fold p. fold sh. set (n := near_int _ _) in *. clearbody n.
  replace (first_exp a b - p + 1)%Z with (- sh)%Z by (unfold sh; lia). split; [exact F|]. pose proof (p10_pos sh) as Ps. pose proof (p10_pos (- sh)) as Qs.
  assert (Y : IZR n * p10 (- sh) - v = (IZR n - v * p10 sh) * p10 (- sh)) by (rewrite p10_inv; field; lra).
  split; [|split].
  - destruct (Z.eqb_spec n (10 ^ p)) as [C|C]; cbn [fst snd].
    + rewrite C, !p10_IZR by lia. rewrite <- !p10_plus. f_equal. unfold sh. lia.
    + replace (first_exp a b - p + 1)%Z with (- sh)%Z by (unfold sh; lia). reflexivity.
  - rewrite Y, Rabs_mult, (Rabs_pos_eq (p10 (- sh))) by lra. apply Rmult_le_compat_r; lra.
  - rewrite Y, Rabs_mult, (Rabs_pos_eq (p10 (- sh))) by lra. intros E. apply Nt. apply Rmult_eq_reg_r with (p10 (- sh)); lra.
Qed.
(** Writing: the decimal written is the nearest with prec digits, and of two equally near the one whose last digit is even. *)
Theorem C69_print_ties : forall prec x, (1 <= prec)%nat -> finite_double x -> real x <> 0 -> exists d k x0 n,
  print_double prec x = (if sign_SF x then ["-"%char] else []) ++ layout prec d k /\ powerRZ 10 x0 <= Rabs (real x) < powerRZ 10 (x0 + 1) /\
  let last := powerRZ 10 (x0 - Z.of_nat prec + 1) in
  IZR d * powerRZ 10 (k - Z.of_nat prec + 1) = IZR n * last /\ Rabs (IZR n * last - Rabs (real x)) <= / 2 * last /\ (Rabs (IZR n * last - Rabs (real x)) = / 2 * last -> Z.even n = true).
Proof.
  intros prec x P F N. apply fl_iff in F. destruct x as [s|s| |s m e]; try (exfalso; apply N; reflexivity); try (destruct F as [_ F]; discriminate F).
  assert (A : (0 < Z.pos m * 2 ^ Z.max e 0)%Z) by (apply Z.mul_pos_pos; [lia|apply Z.pow_pos_nonneg; lia]). assert (Bb : (0 < 2 ^ Z.max (- e) 0)%Z) by (apply Z.pow_pos_nonneg; lia).
  destruct (to_decimal_tie prec _ _ P A Bb) as (x0 & n & X & E & L & T). cbv zeta in *.
  assert (M : mag_of (S754_finite s m e) = IZR (Z.pos m * 2 ^ Z.max e 0) / IZR (2 ^ Z.max (- e) 0)).
  { unfold mag_of. rewrite finite_value. apply IZR_lt in A, Bb. assert (0 < IZR (Z.pos m * 2 ^ Z.max e 0) / IZR (2 ^ Z.max (- e) 0)) by (apply Rdiv_lt_0_compat; auto). destruct s; [rewrite Rabs_left; lra|rewrite Rabs_pos_eq; lra]. }
  change (Rabs (real (S754_finite s m e))) with (mag_of (S754_finite s m e)). rewrite M.
  exists (fst (to_decimal prec (Z.pos m * 2 ^ Z.max e 0) (2 ^ Z.max (- e) 0))), (snd (to_decimal prec (Z.pos m * 2 ^ Z.max e 0) (2 ^ Z.max (- e) 0))), x0, n. rewrite <- !p10_power.
  split; [|split; [exact X|split; [exact E|split; [exact L|exact T]]]].
  unfold print_double. replace (Nat.max prec 1) with prec by lia. destruct (to_decimal prec _ _) as [d k]. cbn [fst snd sign_SF]. destruct s; reflexivity.
Qed.
Print Assumptions C69_print_ties.
Example C69_print_ties_example : print_double 1 (S754_finite false 5 (-1)) = txt "2" /\ print_double 1 (S754_finite false 7 (-1)) = txt "4" /\ print_double 1 (S754_finite true 19 (-1)) = txt "-1e+01" /\
  print_double 2 (S754_finite false 1 (-3)) = txt "0.12".
Proof. repeat split; vm_compute; reflexivity. Qed.

Lemma nearest_cases s n x : (0 < n)%Z -> Rabs (rnd (IZR n * p10 x)) < bpow radix2 1024 /\ (exists z, nearest_double s n x = Some z /\ fl z) \/ bpow radix2 1024 <= Rabs (rnd (IZR n * p10 x)) /\ nearest_double s n x = None.
Proof.
  intros N. destruct (Rlt_or_le (Rabs (rnd (IZR n * p10 x))) (bpow radix2 1024)) as [B|B]; [left; split; [exact B|]; destruct (nearest_ok s n x N B) as (z & E & F & _); eauto|].
  right. split; [exact B|]. pose proof (fraction_value n x) as Fr. unfold nearest_double.
  assert (Pb : (0 < 10 ^ Z.max (- x) 0)%Z) by (apply Z.pow_pos_nonneg; lia). assert (Pa : (0 < n * 10 ^ Z.max x 0)%Z) by (apply Z.mul_pos_pos; [lia|apply Z.pow_pos_nonneg; lia]).
  destruct n as [|n|n]; try lia. destruct (10 ^ Z.max (- x) 0)%Z as [|b|b]; try lia. destruct (Zpos n * 10 ^ Z.max x 0)%Z as [|a|a]; try lia.
  pose proof (Bdiv_correct_aux prec64 emax64 _ _ mode_NE s a 0 false b 0) as [V P]. revert V P.
  destruct (SFdiv_core_binary prec64 emax64 (Z.pos a) 0 (Z.pos b) 0) as [[mz ez] lz]. rewrite <- binary_round_aux_equiv. rewrite xorb_false_r.
  assert (Q : F2R (Float radix2 (cond_Zopp s (Z.pos a)) 0) / F2R (Float radix2 (cond_Zopp false (Z.pos b)) 0) = if s then - (IZR (Z.pos n) * p10 x) else IZR (Z.pos n) * p10 x).
  { rewrite <- Fr. unfold F2R. cbn [Fnum Fexp bpow cond_Zopp]. assert (IZR (Z.pos b) <> 0) by (apply IZR_neq; lia). destruct s; cbn [cond_Zopp]; [change (Z.neg a) with (- Z.pos a)%Z; rewrite opp_IZR|]; field; auto. }
  rewrite Q. cbn [round_mode].
  assert (Rn : round radix2 (SpecFloat.fexp prec64 emax64) ZnearestE (if s then - (IZR (Z.pos n) * p10 x) else IZR (Z.pos n) * p10 x) = if s then - rnd (IZR (Z.pos n) * p10 x) else rnd (IZR (Z.pos n) * p10 x)).
  { destruct s; [apply rnd_opp|reflexivity]. }
  rewrite Rn. rewrite Rlt_bool_false by (destruct s; rewrite ?Rabs_Ropp; exact B). intros V P. rewrite P. unfold binary_overflow, overflow_to_inf. reflexivity.
Qed.
Lemma nearest_finite s n x z : nearest_double s n x = Some z -> fl z.
Proof.
  intros E. destruct n as [|n|n].
  - injection E as <-. split; reflexivity.
  - destruct (nearest_cases s (Z.pos n) x ltac:(lia)) as [[_ (z' & E' & F)]|[_ E']]; congruence.
  - injection E as <-. split; reflexivity.
Qed.
(** Reading: whatever the text, the number read is finite. *)
Theorem C69_scan_finite : forall t z rest, scan_double t = Some (z, rest) -> finite_double z.
Proof.
  intros t z rest E. apply fl_iff. revert E. unfold scan_double. destruct (take_sign (skip_space t)) as [s t1]. destruct (take_digits t1) as [w t2].
  destruct (match t2 with [] => _ | _ => _ end) as [f t3]. destruct (w ++ f) as [|d ds]; [discriminate|]. 
  assert (G : forall x r, match nearest_double s (number (d :: ds)) (x - Z.of_nat (length f)) with Some z => Some (z, r) | None => None end = Some (z, rest) -> fl z).
  { intros x r. destruct (nearest_double s _ _) as [z'|] eqn:N; [|discriminate]. intros [= <- _]. eapply nearest_finite; exact N. }
  destruct t3 as [|c r]; [apply G|]. destruct (Ascii.eqb c "e" || Ascii.eqb c "E")%bool; [|apply G]. destruct (take_sign r) as [sx r1]. destruct (take_digits r1) as [xs r2]. destruct xs; [discriminate|]. apply G.
Qed.
Print Assumptions C69_scan_finite.
(** Reading: a decimal that rounds beyond the largest double is refused. *)
Theorem C69_overflow : forall (s : bool) pre w f (ex : option Z) rest, blank pre -> ends rest -> w <> [] -> Forall (fun d => 0 <= d <= 9)%Z (w ++ f) ->
  let v := decimal (w ++ f) (match ex with Some x => x | None => 0%Z end - Z.of_nat (length f)) in bpow radix2 1024 <= nearest v ->
  scan_double (pre ++ (if s then ["-"%char] else []) ++ map digit_char w ++ fraction f ++ match ex with Some x => exponent x | None => [] end ++ rest) = None.
Proof.
  intros s pre w f ex rest B E Nw D v O. apply Forall_app in D as D'. destruct D' as [Dw Df]. assert (Ev : v = IZR (number (w ++ f)) * p10 (match ex with Some x => x | None => 0%Z end - Z.of_nat (length f))) by (unfold v, decimal; now rewrite p10_power). clearbody v.
  pose proof (scan_parts s pre w f ex rest B Nw Dw Df (ends_plain rest E)) as S.
  assert (N0 : (0 <= number (w ++ f))%Z) by (apply number_nonneg; exact D). pose proof (bpow_gt_0 radix2 1024) as BP.
  assert (N1 : (0 < number (w ++ f))%Z). { destruct (Z.eq_dec (number (w ++ f)) 0) as [Z|Z]; [|lia]. exfalso. rewrite Z, Rmult_0_l in Ev. rewrite Ev in O. change (nearest 0) with (rnd 0) in O. rewrite rnd_0 in O. lra. }
  destruct (nearest_cases s (number (w ++ f)) (match ex with Some x => x | None => 0%Z end - Z.of_nat (length f)) N1) as [[C _]|[_ C]].
  - exfalso. rewrite <- Ev in C. change (rnd v) with (nearest v) in C. rewrite Rabs_pos_eq in C by lra. lra.
  - unfold outcome_of in S. rewrite C in S. rewrite <- S. f_equal. f_equal. unfold minus. destruct s; cbn [app]; rewrite <- ?app_assoc; reflexivity.
Qed.
Print Assumptions C69_overflow.
Example C69_overflow_example : scan_double (txt "1.8e308)") = None /\ scan_double (txt "1.7976931348623157e308)") = Some (S754_finite false 9007199254740991 971, txt ")") /\ bpow radix2 1024 <= nearest (decimal [1]%Z 400).
Proof.
  split; [vm_compute; reflexivity|]. split; [vm_compute; reflexivity|]. rewrite <- (rnd_format (bpow radix2 1024)).
  - apply rnd_mono. unfold decimal. cbn [fold_left]. rewrite <- p10_power, <- p10_IZR by lia. change (bpow radix2 1024) with (IZR (2 ^ 1024)). rewrite <- mult_IZR. apply IZR_le. vm_compute. discriminate.
  - apply generic_format_bpow. vm_compute. discriminate.
Qed.
