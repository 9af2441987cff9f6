(** The power series in doubles: how close its sum is.  Proofs. *)
From Coq Require Import ZArith Reals Bool SpecFloat Lia Lra.
From Coquelicot Require Import Coquelicot.
From Flocq Require Import Core IEEE754.BinarySingleNaN.
From Verif Require Import Base Scalar OrdLib RLib B64Lib B64Ops FloatOps ConstSpec RoundLib RoundProofs RSpec RoundProofs2 SegDouble MiniballModel LitModel.
From Verif Require Import ProbModel ProbDoubleModel ProbSpec ProbProofs4 SeriesDouble.
From Verif Require ProbProofs6.
Open Scope R_scope.

Lemma abs_le x a : Rabs x <= a -> - a <= x <= a.
Proof. intros. now apply Rabs_le_inv. Qed.
Section Real.
Variables (u h : R).
Hypotheses (Hu : 0 < u <= 1 / 1000) (Hh : 0 < h <= u).
Lemma term_step k T t r q t' : 0 <= k -> k * u <= 1 / 1000 -> 0 <= T -> 0 <= t <= 1 -> 0 <= r <= 1 -> 0 <= q ->
  Rabs (q - r) <= u * r + h -> Rabs (t' - t * q) <= u * (t * q) + h -> Rabs (t - T) <= 3 * (k * u) * T + 4 * (k * h) ->
  Rabs (t' - T * r) <= 3 * ((k + 1) * u) * (T * r) + 4 * ((k + 1) * h).
Proof.
  intros Hk W HT Ht Hr Hq Q P A. apply abs_le in Q, P, A. assert (E : t' - T * r = (t' - t * q) + t * (q - r) + (t - T) * r) by ring.
  set (Y := t * r). set (X := T * r) in *. assert (X0 : 0 <= X) by (apply Rmult_le_pos; lra). assert (Y0 : 0 <= Y) by (apply Rmult_le_pos; lra).
  assert (A1 : - (u * Y + h) <= t * (q - r) <= u * Y + h).
  { assert (B : Rabs (t * (q - r)) <= u * Y + h). { rewrite Rabs_mult, (Rabs_pos_eq t) by lra. apply Rle_trans with (t * (u * r + h)); [apply Rmult_le_compat_l; [lra|apply Rabs_le; lra]|]. unfold Y. assert (t * h <= 1 * h) by (apply Rmult_le_compat_r; lra). lra. } now apply abs_le. }
  assert (A2 : Rabs ((t - T) * r) <= 3 * (k * u) * X + 4 * (k * h)).
  { rewrite Rabs_mult, (Rabs_pos_eq r) by lra. apply Rle_trans with ((3 * (k * u) * T + 4 * (k * h)) * r); [apply Rmult_le_compat_r; [lra|apply Rabs_le; lra]|]. assert (0 <= k * h) by (apply Rmult_le_pos; lra). assert (k * h * r <= k * h * 1) by (apply Rmult_le_compat_l; lra). unfold X. lra. }
  apply abs_le in A2. assert (Ey : Y - X = (t - T) * r) by (unfold X, Y; ring). assert (Et : t * q = Y + t * (q - r)) by (unfold Y; ring). clearbody X Y. rewrite E. set (tq := t * q) in *. set (e1 := t * (q - r)) in *. set (e2 := (t - T) * r) in *. clearbody tq e1 e2.
  assert (kh : 0 <= k * h) by (apply Rmult_le_pos; lra). assert (ku : 0 <= k * u) by (apply Rmult_le_pos; lra).
  assert (M1 : k * u * X <= 1 / 1000 * X) by (apply Rmult_le_compat_r; lra). assert (M2 : u * Y <= u * (1.003 * X + 4 * (k * h))) by (apply Rmult_le_compat_l; lra).
  assert (M3 : u * (k * h) <= 1 / 1000 * h) by (replace (u * (k * h)) with (k * u * h) by ring; apply Rmult_le_compat_r; lra). assert (M4 : u * tq <= u * (Y + (u * Y + h))) by (apply Rmult_le_compat_l; lra).
  assert (M5 : u * (u * Y) <= 1 / 1000 * (u * Y)) by (apply Rmult_le_compat_r; [apply Rmult_le_pos; lra|lra]). assert (M6 : u * h <= 1 / 1000 * h) by (apply Rmult_le_compat_r; lra). assert (M7 : 0 <= u * X) by (apply Rmult_le_pos; lra).
  assert (UY : u * Y <= 1.003 * (u * X) + 4 / 1000 * h) by lra. apply Rabs_le.
  replace (3 * ((k + 1) * u) * X + 4 * ((k + 1) * h)) with (3 * (k * u) * X + 3 * (u * X) + 4 * (k * h) + 4 * h) by ring. lra.
Qed.
Lemma sum_step k S s T' t' s' : 0 <= k -> (k + 1) * u <= 1 / 1000 -> (k + 1) * h <= u / 1000 -> 1 <= S -> 0 <= T' -> 0 <= s + t' ->
  Rabs (s - S) <= 5 * (k * u) * S -> Rabs (t' - T') <= 3 * ((k + 1) * u) * T' + 4 * ((k + 1) * h) -> Rabs (s' - (s + t')) <= u * (s + t') ->
  Rabs (s' - (S + T')) <= 5 * ((k + 1) * u) * (S + T').
Proof.
  intros Hk W V HS HT Hp A B C. apply abs_le in A, B, C. assert (ku : 0 <= k * u) by (apply Rmult_le_pos; lra).
  assert (M1 : k * u * S <= 1 / 1000 * S) by (apply Rmult_le_compat_r; lra). assert (M2 : (k + 1) * u * T' <= 1 / 1000 * T') by (apply Rmult_le_compat_r; lra).
  assert (M3 : u * (s + t') <= u * (1.02 * (S + T'))) by (apply Rmult_le_compat_l; lra). assert (M4 : u * 1 <= u * S) by (apply Rmult_le_compat_l; lra). assert (M5 : 0 <= u * T') by (apply Rmult_le_pos; lra). assert (M6 : 0 <= k * u * T') by (apply Rmult_le_pos; lra).
  apply Rabs_le. replace (5 * ((k + 1) * u) * (S + T')) with (5 * (k * u) * S + 5 * (k * u * T') + 5 * (u * S) + 5 * (u * T')) by ring. replace (3 * ((k + 1) * u) * T') with (3 * (k * u * T') + 3 * (u * T')) in * by ring. lra.
Qed.
(** at the end: the last term is small, and so are all the others *)
Lemma sum_final k N S T t s G : 1 <= k <= N -> N * u <= 1 / 1000 -> N * h <= u / 1000 -> 1 <= S -> 0 <= T -> 0 < s ->
  Rabs (s - S) <= 5 * (k * u) * S -> Rabs (t - T) <= 3 * (k * u) * T + 4 * (k * h) -> t <= 3 * u * s -> S <= G <= S + T * N ->
  Rabs (s - G) <= 9 * (N * u) * G.
Proof.
  intros Hk W V HS HT Hs A B C D. apply abs_le in A, B. assert (K1 : k * u <= N * u) by (apply Rmult_le_compat_r; lra). assert (K2 : k * h <= N * h) by (apply Rmult_le_compat_r; lra). assert (ku : 0 <= k * u) by (apply Rmult_le_pos; lra).
  assert (M1 : k * u * S <= 1 / 1000 * S) by (apply Rmult_le_compat_r; lra). assert (M2 : k * u * T <= 1 / 1000 * T) by (apply Rmult_le_compat_r; lra). assert (M4 : u * 1 <= u * S) by (apply Rmult_le_compat_l; lra). assert (M3 : u * s <= u * (1.01 * S)) by (apply Rmult_le_compat_l; lra).
  assert (T3 : T <= 3.2 * (u * S)) by lra. assert (M5 : T * N <= 3.2 * (u * S) * N) by (apply Rmult_le_compat_r; lra). assert (M6 : N * u * S <= N * u * G) by (apply Rmult_le_compat_l; lra). assert (M7 : k * u * S <= N * u * S) by (apply Rmult_le_compat_r; lra).
  apply Rabs_le. replace (3.2 * (u * S) * N) with (3.2 * (N * u * S)) in M5 by ring. lra.
Qed.
Lemma inverse_close M s G x : 1 <= M -> M * u <= 1 / 1000 -> 1 <= G -> Rabs (s - G) <= 9 * (M * u) * G -> Rabs (x - 1 / s) <= u * (1 / s) -> Rabs (x - 1 / G) <= 11 * M * u * (1 / G).
Proof.
  intros HM W HG A B. apply abs_le in A. set (w := M * u) in *. assert (w0 : u <= w) by (unfold w; rewrite <- (Rmult_1_l u) at 1; apply Rmult_le_compat_r; lra). assert (wG : w * G <= 1 / 1000 * G) by (apply Rmult_le_compat_r; lra). assert (Hs : 0.991 * G <= s) by lra.
  assert (I : 0 < 1 / G) by (apply Rdiv_lt_0_compat; lra). assert (S1 : 1 / s <= 1.01 * (1 / G)). { apply Rmult_le_reg_r with (s * G); [apply Rmult_lt_0_compat; lra|]. replace (1 / s * (s * G)) with G by (field; lra). replace (1.01 * (1 / G) * (s * G)) with (1.01 * s) by (field; lra). lra. }
  assert (J : 0 < 1 / s) by (apply Rdiv_lt_0_compat; lra). assert (E : 1 / s - 1 / G = (G - s) * (1 / s) * (1 / G)) by (field; lra).
  assert (D : Rabs (1 / s - 1 / G) <= 9.2 * w * (1 / G)). { rewrite E, Rabs_mult, (Rabs_pos_eq (1 / G)) by lra. apply Rmult_le_compat_r; [lra|]. rewrite Rabs_mult, (Rabs_pos_eq (1 / s)) by lra. apply Rle_trans with (9 * w * G * (1.01 * (1 / G))); [apply Rmult_le_compat; [apply Rabs_pos|lra|rewrite Rabs_minus_sym; apply Rabs_le; lra|lra]|]. replace (9 * w * G * (1.01 * (1 / G))) with (9 * 1.01 * w) by (field; lra). lra. }
  apply abs_le in B, D. assert (M1 : u * (1 / s) <= w * (1.01 * (1 / G))) by (apply Rmult_le_compat; lra). replace (11 * M * u * (1 / G)) with (11 * (w * (1 / G))) by (unfold w; ring). assert (0 <= w * (1 / G)) by (apply Rmult_le_pos; lra). apply Rabs_le. lra.
Qed.
End Real.

Section Run.
Variables (m : libm) (e l : spec_float -> spec_float).
Variables (z : spec_float) (n : Z).
Hypotheses (Fz : fl z) (Hz : 0 < val z <= IZR n + 1) (Hn : (1 <= n < 2 ^ 32 - 1)%Z).
Let a : R := IZR n.
(** The term and the sum after k steps. *)
Definition near (k : nat) (term ans : spec_float) : Prop :=
  Rabs (val term - pc a (val z) k) <= 3 * (INR k * u64) * pc a (val z) k + 4 * (INR k * eta64) /\
  Rabs (val ans - ps a (val z) k) <= 5 * (INR k * u64) * ps a (val z) k.
Lemma small_u : 0 < u64 <= 1 / 1000.
Proof. split; [apply u64_pos|]. apply Rle_trans with (bpow radix2 (-10)); [apply bpow_le; lia|]. change (bpow radix2 (-10)) with (/ IZR (2 ^ 10)). change (2 ^ 10)%Z with 1024%Z. lra. Qed.
Lemma small_eta : 0 < eta64 <= u64.
Proof. split; [apply eta64_pos|]. apply bpow_le. lia. Qed.
Lemma count_small x : 0 <= x <= bpow radix2 34 -> x * u64 <= 1 / 1000 /\ x * eta64 <= u64 / 1000.
Proof.
  intros Hx. assert (Q : bpow radix2 (-10) <= 1 / 1000) by (change (bpow radix2 (-10)) with (/ IZR (2 ^ 10)); change (2 ^ 10)%Z with 1024%Z; lra). pose proof u64_pos. pose proof eta64_pos. split.
  - apply Rle_trans with (bpow radix2 34 * u64); [apply Rmult_le_compat_r; lra|]. unfold u64. rewrite <- bpow_plus. apply Rle_trans with (bpow radix2 (-10)); [apply bpow_le; lia|exact Q].
  - apply Rle_trans with (bpow radix2 34 * eta64); [apply Rmult_le_compat_r; lra|]. apply Rle_trans with (u64 * bpow radix2 (-10)); [unfold u64, eta64; rewrite <- !bpow_plus; apply bpow_le; lia|]. unfold Rdiv. apply Rmult_le_compat_l; lra.
Qed.
Lemma a_pos : 1 <= a.
Proof. apply IZR_le. lia. Qed.
Lemma near_step k S term d ans : state 1 (n + Z.of_nat k) S term d ans -> (Z.of_nat k <= 2 ^ 33)%Z -> (S + 1 <= 2 ^ 40)%Z -> near k term ans ->
  let d' := SFadd prec64 emax64 d (b64_ofZ 1) in let term' := SFmul prec64 emax64 term (SFdiv prec64 emax64 z d') in let ans' := SFadd prec64 emax64 ans term' in
  state 1 (n + Z.of_nat (Datatypes.S k)) (S + 1) term' d' ans' /\ near (Datatypes.S k) term' ans'.
Proof.
  intros St Hk HS (N1 & N2) d' term' ans'. pose proof a_pos as Pa. assert (Ek : IZR (Z.of_nat k) = INR k) by (symmetry; apply INR_IZR_INZ). pose proof (pos_INR k) as K0. assert (Hd : val z <= IZR (n + Z.of_nat k + 1)) by (rewrite !plus_IZR, Ek; lra).
  destruct (step z Fz (proj1 Hz) 1 _ S term d ans St (Rle_refl 1) Hd ltac:(lia) HS) as [St' _]. fold d' term' ans' in St'. replace (n + Z.of_nat (Datatypes.S k))%Z with (n + Z.of_nat k + 1)%Z by lia. split; [exact St'|].
  destruct St as (F1 & B1 & F2 & E2 & B2 & F3 & B3 & B4). destruct St' as (F1' & B1' & F2' & E2' & B2' & F3' & B3' & B4').
  assert (E2a : val d' = a + INR k + 1) by (rewrite E2', !plus_IZR, Ek; reflexivity). set (r := val z / val d'). assert (Hr : 0 <= r <= 1). { unfold r. rewrite E2a. unfold a in *. split; [apply Rmult_le_pos; [lra|left; apply Rinv_0_lt_compat; lra]|]. apply Rmult_le_reg_r with (IZR n + INR k + 1); [lra|]. unfold Rdiv. rewrite Rmult_assoc, Rinv_l, Rmult_1_r by lra. lra. }
  assert (Bg : 1 <= big) by (apply (bpow_le radix2 0 1023); lia). destruct (div_ok z d' Fz F2' ltac:(rewrite E2a; lra) ltac:(fold r; rewrite Rabs_pos_eq; lra)) as [Fq Eq]. set (q := SFdiv prec64 emax64 z d') in *. fold r in Eq.
  assert (R1 : rnd 1 = 1) by (apply (rnd_whole 1); lia). assert (Qv : 0 <= val q <= 1). { rewrite Eq. split; [apply rnd_nonneg; lra|]. rewrite <- R1. apply rnd_mono. lra. }
  assert (Pq : 0 <= val term * val q <= 1). { split; [apply Rmult_le_pos; lra|]. rewrite <- (Rmult_1_r 1). apply Rmult_le_compat; lra. }
  destruct (mul_ok term q F1 Fq ltac:(rewrite Rabs_pos_eq; lra)) as [_ Et]. fold term' in Et. assert (Bk : bpow radix2 40 <= big) by (apply bpow_le; lia). assert (S40 : IZR (S + 1) <= bpow radix2 40) by (change (bpow radix2 40) with (IZR (2 ^ 40)); apply IZR_le; lia).
  assert (As : 0 <= val ans + val term') by lra. destruct (add_ok ans term' F3 F1' ltac:(rewrite Rabs_pos_eq by lra; rewrite plus_IZR in S40; lra)) as [_ Ea]. fold ans' in Ea.
  assert (C : 0 <= INR k + 1 <= bpow radix2 34). { split; [lra|]. rewrite <- Ek. rewrite <- plus_IZR. change (bpow radix2 34) with (IZR (2 ^ 34)). apply IZR_le. lia. }
  destruct (count_small _ C) as [C1 C2]. destruct (count_small (INR k) ltac:(lra)) as [C3 _].
  assert (TS : Rabs (val term' - pc a (val z) (Datatypes.S k)) <= 3 * ((INR k + 1) * u64) * pc a (val z) (Datatypes.S k) + 4 * ((INR k + 1) * eta64)).
  { cbn [pc]. rewrite <- E2a. fold r. apply (term_step u64 eta64 small_u small_eta (INR k) _ (val term) r (val q)); first [exact N1|lra|left; apply pc_pos; unfold a in *; lra|idtac].
    - rewrite Eq. pose proof (rnd_err r) as Q. rewrite (Rabs_pos_eq r) in Q by lra. exact Q.
    - rewrite Et. pose proof (rnd_err (val term * val q)) as Q. rewrite (Rabs_pos_eq (val term * val q)) in Q by lra. exact Q. }
  unfold near. rewrite S_INR. split; [exact TS|]. change (ps a (val z) (Datatypes.S k)) with (ps a (val z) k + pc a (val z) (Datatypes.S k)).
  apply (sum_step u64 eta64 small_u (INR k) _ (val ans) _ (val term')); auto; [apply ps_ge; unfold a in *; lra|left; apply pc_pos; unfold a in *; lra|].
  rewrite Ea. pose proof (rnd_add_err _ _ (fl_format _ F3) (fl_format _ F1')) as Q. rewrite (Rabs_pos_eq (val ans + val term')) in Q by lra. exact Q.
Qed.
Lemma run fuel : forall k S term d ans r, state 1 (n + Z.of_nat k) S term d ans -> (Z.of_nat k + Z.of_nat fuel <= 2 ^ 33)%Z -> (S + Z.of_nat fuel + 1 <= 2 ^ 40)%Z -> near k term ans ->
  power_series (H := B64 m) (H0 := Btrans e l) fuel z term d ans = Some (Ret r) ->
  exists K t, (k <= K < k + fuel)%nat /\ near K t r /\ 0 <= val t /\ fl r /\ 1 <= val r <= bpow radix2 40 /\ rnd (val t / val r) <= bpow radix2 (-52).
Proof.
  induction fuel as [|fuel IH]; intros k S term d ans r St Hk HS N R; [discriminate R|]. rewrite unfold_series in R. destruct (quotient_ok 1 _ _ _ _ _ St (Rle_refl 1)) as (Fc & Ec & Bc). destruct ulp_ok as [Fu Eu]. rewrite (ltb_ok _ _ Fu Fc), Ec, Eu in R.
  destruct (Rlt_bool_spec (bpow radix2 (-52)) (rnd (val term / val ans))) as [L|L].
  - destruct (near_step k S term d ans St ltac:(lia) ltac:(lia) N) as [St' N']. destruct (IH _ _ _ _ _ _ St' ltac:(lia) ltac:(lia) N' R) as (K & t & HK & Q). exists K, t. split; [lia|exact Q].
  - injection R as <-. destruct St as (F1 & B1 & F2 & E2 & B2 & F3 & B3 & B4). exists k, term. split; [lia|]. split; [exact N|]. split; [lra|]. split; [exact F3|]. split; [|exact L]. split; [lra|]. change (bpow radix2 40) with (IZR (2 ^ 40)). eapply Rle_trans; [apply B3|apply IZR_le; lia].
Qed.
Lemma more_fuel fuel : forall term d ans r, power_series (H := B64 m) (H0 := Btrans e l) fuel z term d ans = Some (Ret r) -> forall fuel', (fuel <= fuel')%nat -> power_series (H := B64 m) (H0 := Btrans e l) fuel' z term d ans = Some (Ret r).
Proof.
  induction fuel as [|fuel IH]; intros term d ans r R fuel' L; [discriminate R|]. destruct fuel' as [|fuel']; [lia|]. rewrite unfold_series in *. destruct (SFltb _ _); [|exact R]. cbv zeta in *. apply (IH _ _ _ _ R). lia.
Qed.
Lemma start : state 1 n 1 (b64_ofZ 1) (b64_ofZ n) (b64_ofZ 1).
Proof.
  destruct (ofZ_whole 1 ltac:(lia)) as [F1 V1]. destruct (ofZ_whole n ltac:(lia)) as [Fn Vn]. refine (conj F1 (conj _ (conj Fn (conj Vn (conj (conj _ _) (conj F1 (conj _ (conj _ _)))))))); try rewrite V1; first [lra|lia].
Qed.
Lemma series_close G : is_series (pc a (val z)) G -> exists r, fl r /\ 1 <= val r <= bpow radix2 40 /\ Rabs (val r - G) <= 9 * ((a + 60) * u64) * G /\ 1 <= G /\
  forall fuel, (Z.to_nat n + 60 <= fuel)%nat -> power_series (H := B64 m) (H0 := Btrans e l) fuel z (b64_ofZ 1) (b64_ofZ n) (b64_ofZ 1) = Some (Ret r).
Proof.
  intros Sr. destruct (ofZ_whole 1 ltac:(lia)) as [F1 V1]. pose proof a_pos as Pa.
  destruct (series_ends m e l z Fz (proj1 Hz) (S (Z.to_nat n)) (Z.to_nat n + 60) n 1 _ _ _ ltac:(lia) start ltac:(rewrite plus_IZR; lra) ltac:(rewrite Nat2Z.inj_succ, Z2Nat.id by lia; unfold Z.succ; rewrite !plus_IZR; lra) ltac:(lia) ltac:(lia)) as (r & Er & Fr & _).
  destruct (run (Z.to_nat n + 60) 0 1 (b64_ofZ 1) (b64_ofZ n) (b64_ofZ 1) r) as (K & t' & HK & (N1 & N2) & Pt & _ & Br & L); try lia; [rewrite Z.add_0_r; exact start| |exact Er|].
  { split; cbn [INR pc ps]; rewrite V1, Rminus_diag_eq, Rabs_R0 by reflexivity; lra. }
  assert (LU : rnd (val t' / val r) <= 2 * u64). { eapply Rle_trans; [exact L|]. right. unfold u64. change (-52)%Z with (1 + -53)%Z. rewrite bpow_plus. reflexivity. }
  assert (Q : val t' / val r <= 3 * u64).
  { pose proof (rnd_err (val t' / val r)) as Q. assert (0 <= val t' / val r) by (apply Rmult_le_pos; [lra|left; apply Rinv_0_lt_compat; lra]). rewrite (Rabs_pos_eq (val t' / val r)) in Q by lra. apply abs_le in Q. pose proof small_u as U. destruct (count_small 1) as [_ U2]; [split; [lra|apply (bpow_le radix2 0 34); lia]|].
    set (x := val t' / val r) in *. assert (u64 * x <= 1 / 1000 * x) by (apply Rmult_le_compat_r; lra). assert (x <= 3) by lra. assert (X2 : x <= 2.1 * u64 + 1 / 1000 * x) by lra. lra. }
  assert (Qt : val t' <= 3 * u64 * val r). { replace (val t') with (val t' / val r * val r) by (field; lra). apply Rmult_le_compat_r; lra. }
  assert (K1 : (1 <= K)%nat). { destruct K as [|K]; [|lia]. exfalso. cbn [INR pc ps] in N1, N2. apply abs_le in N1, N2. pose proof small_u. assert (X : val r = 1) by lra. rewrite X in Qt. lra. }
  assert (KN : INR K <= a + 60). { unfold a. rewrite INR_IZR_INZ, <- plus_IZR. apply IZR_le. lia. } pose proof (le_INR _ _ K1) as K1'. change (INR 1) with 1 in K1'.
  assert (Cs : 0 <= a + 60 <= bpow radix2 34). { split; [lra|]. unfold a. rewrite <- plus_IZR. change (bpow radix2 34) with (IZR (2 ^ 34)). apply IZR_le. lia. } destruct (count_small _ Cs) as [C1 C2].
  assert (A1 : 0 < a) by lra. assert (A2 : 0 < val z <= a + 1) by (unfold a; lra). pose proof (series_rest a (val z) A1 A2 G K Sr K1) as (B1 & B2). pose proof (ps_ge a (val z) A1 A2 K) as PS. pose proof (pc_pos a (val z) A1 A2 K) as PC.
  exists r. split; [exact Fr|]. split; [exact Br|]. split; [|split; [lra|intros fuel Hf; apply (more_fuel _ _ _ _ _ Er); lia]].
  apply (sum_final u64 eta64 small_u small_eta (INR K) (a + 60) (ps a (val z) K) (pc a (val z) K) (val t') (val r) G); auto; try lra. split; [exact B1|]. eapply Rle_trans; [exact B2|]. apply Rplus_le_compat_l. apply Rmult_le_compat_l; [lra|].
  apply Rmult_le_reg_r with (INR K); [lra|]. unfold Rdiv. rewrite Rmult_assoc, Rinv_l, Rmult_1_r by lra. assert ((a + 60) * 1 <= (a + 60) * INR K) by (apply Rmult_le_compat_l; lra). lra.
Qed.
End Run.

Lemma conditional_is m (e l : spec_float -> spec_float) mu n fuel : fl mu -> 0 < val mu <= IZR n + 1 -> (1 <= n < 2 ^ 32 - 1)%Z ->
  poisson_conditional (H := B64 m) (H0 := Btrans e l) fuel mu n = rbind (power_series (H := B64 m) (H0 := Btrans e l) fuel mu (b64_ofZ 1) (b64_ofZ n) (b64_ofZ 1)) (fun x => Some (Ret (SFdiv prec64 emax64 (b64_ofZ 1) x))).
Proof.
  intros Fm Bm Hn. destruct (ofZ_whole 0 ltac:(lia)) as [F0 V0]. destruct (ofZ_whole 1 ltac:(lia)) as [F1 V1]. destruct (ofZ_whole n ltac:(lia)) as [Fn Vn]. destruct (ofZ_whole (n + 1) ltac:(lia)) as [Fp Vp].
  unfold poisson_conditional.
  change (nleb (Num := B64 m) (n0 (H := B64 m)) mu) with (SFleb (b64_ofZ 0) mu). rewrite (leb_ok _ _ F0 Fm), V0, Rle_bool_true by lra. cbn [oassert rbind].
  change (neqb (Num := B64 m) mu (n0 (H := B64 m))) with (SFeqb mu (b64_ofZ 0)). rewrite (eqb_ok _ _ Fm F0), V0, Req_bool_false by lra. destruct (Z.eqb_spec n 0) as [Zn|Zn]; [lia|].
  assert (W : uwrap (n + 1) = (n + 1)%Z) by (unfold uwrap; apply Z.mod_small; lia). rewrite W. change (nltb (Num := B64 m) (nofZ (Num := B64 m) (n + 1)) mu) with (SFltb (b64_ofZ (n + 1)) mu). rewrite (ltb_ok _ _ Fp Fm), Vp, Rlt_bool_false by (rewrite plus_IZR; lra).
  unfold igam_nop. change (nadd (Num := B64 m) (nofZ (Num := B64 m) n) (n1 (H := B64 m))) with (SFadd prec64 emax64 (b64_ofZ n) (b64_ofZ 1)).
  assert (Bg : Rabs (val (b64_ofZ n) + val (b64_ofZ 1)) <= big). { rewrite Vn, V1, <- plus_IZR, Rabs_pos_eq by (apply IZR_le; lia). apply Rle_trans with (IZR (2 ^ 53)); [apply IZR_le; lia|]. change (IZR (2 ^ 53)) with (bpow radix2 53). apply bpow_le. lia. }
  destruct (add_ok _ _ Fn F1 Bg) as [Fs Es]. rewrite Vn, V1, <- plus_IZR, rnd_whole in Es by lia.
  change (nleb (Num := B64 m) mu (SFadd prec64 emax64 (b64_ofZ n) (b64_ofZ 1))) with (SFleb mu (SFadd prec64 emax64 (b64_ofZ n) (b64_ofZ 1))). rewrite (leb_ok _ _ Fm Fs), Es, Rle_bool_true by (rewrite plus_IZR; lra).
  change (nltb (Num := B64 m) (n0 (H := B64 m)) mu) with (SFltb (b64_ofZ 0) mu). rewrite (ltb_ok _ _ F0 Fm), V0, Rlt_bool_true by lra.
  change (nltb (Num := B64 m) (n0 (H := B64 m)) (nofZ (Num := B64 m) n)) with (SFltb (b64_ofZ 0) (b64_ofZ n)). rewrite (ltb_ok _ _ F0 Fn), V0, Vn, Rlt_bool_true by (apply IZR_lt; lia). cbn [andb oassert rbind]. reflexivity.
Qed.

Theorem conditional_close m (e l : spec_float -> spec_float) mu n t : fl mu -> 0 < val mu <= IZR n + 1 -> (1 <= n < 2 ^ 32 - 1)%Z -> poisson_tail (val mu) (Z.to_nat n) t ->
  let q := poisson_pmf (val mu) (Z.to_nat n) / t in
  exists h, fl h /\ Rabs (val h - q) <= 11 * (IZR n + 60) * u64 * q /\ forall fuel, (Z.to_nat n + 60 <= fuel)%nat -> poisson_conditional (H := B64 m) (H0 := Btrans e l) fuel mu n = Some (Ret h).
Proof.
  intros Fm Bm Hn T q. pose proof (ProbProofs6.tail_series (val mu) _ t (proj1 Bm) T) as S. rewrite (INR_IZR_INZ (Z.to_nat n)), Z2Nat.id in S by lia. set (G := t / poisson_pmf (val mu) (Z.to_nat n)) in *.
  destruct (series_close m e l mu n Fm Bm Hn G S) as (r & Fr & Br & Cr & HG & Er). destruct (ofZ_whole 1 ltac:(lia)) as [F1 V1].
  assert (Pp : 0 < poisson_pmf (val mu) (Z.to_nat n)) by (apply ProbProofs6.pmf_pos; lra). assert (Eq : q = 1 / G). { unfold q, G in *. assert (t <> 0) by (intros Z; rewrite Z in HG; unfold Rdiv in HG; lra). field. split; lra. }
  assert (P40 : 0 < bpow radix2 (-40)) by apply bpow_gt_0. assert (Q : bpow radix2 (-40) <= 1 / val r <= 1). { unfold Rdiv. rewrite Rmult_1_l. split; [change (-40)%Z with (Z.opp 40); rewrite bpow_opp; apply Rinv_le; lra|rewrite <- Rinv_1; apply Rinv_le; lra]. }
  assert (B1 : 1 <= big) by (apply (bpow_le radix2 0 1023); lia). destruct (div_ok (b64_ofZ 1) r F1 Fr ltac:(lra) ltac:(rewrite V1, Rabs_pos_eq; lra)) as [Fh Eh]. rewrite V1 in Eh.
  exists (SFdiv prec64 emax64 (b64_ofZ 1) r). split; [exact Fh|]. split; [|intros fuel Hf; rewrite conditional_is by auto; rewrite (Er fuel Hf); reflexivity].
  rewrite Eh, Eq. assert (N1 : 1 <= IZR n) by (apply IZR_le; lia). assert (Cs : 0 <= IZR n + 60 <= bpow radix2 34). { split; [lra|]. rewrite <- plus_IZR. change (bpow radix2 34) with (IZR (2 ^ 34)). apply IZR_le. lia. } destruct (count_small _ Cs) as [C1 _].
  apply (inverse_close u64 small_u (IZR n + 60) (val r)); auto; [lra|]. assert (B22 : bpow radix2 (-1022) <= bpow radix2 (-40)) by (apply bpow_le; lia). pose proof (rnd_rel_err (1 / val r) ltac:(rewrite Rabs_pos_eq; lra)) as R. rewrite (Rabs_pos_eq (1 / val r)) in R by lra. exact R.
Qed.
