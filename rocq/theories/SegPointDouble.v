(** A segment against a point in doubles: proofs. *)
From Coq Require Import ZArith NArith Reals Bool SpecFloat Lia Lra List Psatz FunctionalExtensionality.
From Flocq Require Import Core IEEE754.BinarySingleNaN.
From Verif Require Import Base Scalar OrdLib RLib B64Lib B64Ops ConstSpec RoundLib RoundProofs RSpec ConstModel VecModel VecSpec ConstProofs VecProofs ShapeProofs3 BallProofs RoundProofs2 RoundProofs3 RoundProofs4 BallDouble SegProofs3 RbDouble PropBoxDouble PropBallDouble PropSegDouble SegBallDouble SegPointTol.
From Verif Require Import RoundSpec ShapeModel IntersectModel ShapeSpec.
Import ListNotations.
Open Scope R_scope.

(** ** Arithmetic *)
Lemma uu k : 0 <= k <= 10 ^ 8 -> k * (u64 * u64) <= u64 / 1000.
Proof.
  intros K. pose proof u_tiny as U. pose proof u64_pos as [U0 _]. replace (k * (u64 * u64)) with (u64 * (k * u64)) by ring. apply Rmult_le_compat_l; [lra|].
  apply Rle_trans with (10 ^ 8 * / 10 ^ 12); [apply Rmult_le_compat; lra|lra].
Qed.
Lemma prod_rel m1 m2 S1 S2 : 0 <= m1 -> 0 <= m2 -> Rabs (S1 - m1) <= 11 * u64 * m1 -> Rabs (S2 - m2) <= 11 * u64 * m2 -> Rabs (S1 * S2 - m1 * m2) <= 22.01 * u64 * (m1 * m2).
Proof.
  intros P1 P2 H1 H2. pose proof u64_pos as [U0 _]. assert (A : Rabs S2 <= (1 + 11 * u64) * m2).
  { replace S2 with (m2 + (S2 - m2)) by ring. eapply Rle_trans; [apply Rabs_triang|]. rewrite (Rabs_right m2) by lra. lra. }
  eapply Rle_trans; [apply (prod_close _ _ _ _ _ _ _ m1 H1 H2 A); rewrite Rabs_right; lra|].
  replace (11 * u64 * m1 * ((1 + 11 * u64) * m2) + m1 * (11 * u64 * m2)) with ((22 * u64 + 121 * (u64 * u64)) * (m1 * m2)) by ring.
  apply Rmult_le_compat_r; [apply Rmult_le_pos; lra|]. pose proof (uu 121 ltac:(lra)). lra.
Qed.
Lemma round_rel x Z : 0 <= Z -> eta64 <= u64 / 1000 * Z -> Rabs (x - Z) <= 22.01 * u64 * Z -> Rabs (rnd x - Z) <= 23.1 * u64 * Z.
Proof.
  intros PZ He H. pose proof (rnd_err x) as R. pose proof u64_pos as [U0 _]. pose proof u_tiny as U.
  assert (A : Rabs x <= (1 + 22.01 * u64) * Z). { replace x with (Z + (x - Z)) by ring. eapply Rle_trans; [apply Rabs_triang|]. rewrite (Rabs_right Z) by lra. lra. }
  replace (rnd x - Z) with ((rnd x - x) + (x - Z)) by ring. eapply Rle_trans; [apply Rabs_triang|].
  assert (u64 * Rabs x <= u64 * ((1 + 22.01 * u64) * Z)) by (apply Rmult_le_compat_l; lra).
  replace (u64 * ((1 + 22.01 * u64) * Z)) with ((u64 + 22.01 * (u64 * u64)) * Z) in H0 by ring.
  assert ((u64 + 22.01 * (u64 * u64)) * Z <= (1.01 * u64) * Z) by (apply Rmult_le_compat_r; [lra|]; pose proof (uu 22.01 ltac:(lra)); lra).
  assert (0 <= u64 * Z) by (apply Rmult_le_pos; lra). lra.
Qed.

(** ** Comparison of two doubles *)
Section Cmp.
Variable m : libm.
Notation sc x y := (scale_eps (H := Rnum (val b64_eps)) x y (val b64_eps)).
Lemma equal_round x y : fl x -> fl y -> Rabs (val x - val y) <= big -> equal (H := B64 m) x y (neps (Num := B64 m)) = Rle_bool (Rabs (rnd (val x - val y))) (rnd (sc (val x) (val y))).
Proof.
  intros Fx Fy B. unfold equal. cbn [nleb nabs nsub neps B64]. destruct (sub_ok x y Fx Fy B) as [F E]. destruct (abs_ok _ F) as [F' E'].
  destruct (scale_eps_ok m x y Fx Fy) as [G K]. rewrite leb_ok by auto. rewrite E', E, K. reflexivity.
Qed.
Lemma rnd_abs_eq x : Rabs (rnd x) = rnd (Rabs x).
Proof. symmetry. apply round_NE_abs. typeclasses eauto. Qed.
Lemma equal_yes x y : fl x -> fl y -> Rabs (val x - val y) <= big -> Rabs (val x - val y) <= sc (val x) (val y) -> equal (H := B64 m) x y (neps (Num := B64 m)) = true.
Proof. intros Fx Fy B L. rewrite equal_round by auto. rewrite rnd_abs_eq. apply Rle_bool_true. now apply rnd_mono. Qed.
Lemma equal_then x y : fl x -> fl y -> Rabs (val x - val y) <= big -> equal (H := B64 m) x y (neps (Num := B64 m)) = true ->
  Rabs (val x - val y) * (1 - u64) <= (1 + u64) * sc (val x) (val y) + eta64.
Proof.
  intros Fx Fy B. rewrite equal_round by auto. intros L. destruct (Rle_bool_spec (Rabs (rnd (val x - val y))) (rnd (sc (val x) (val y)))) as [L'|]; [|discriminate].
  pose proof (rnd_add_err (val x) (- val y) ltac:(now apply fl_format) ltac:(apply generic_format_opp; now apply fl_format)) as R. fold (val x - val y) in R.
  pose proof (rnd_err (sc (val x) (val y))) as S'. assert (P : 0 <= sc (val x) (val y)) by (apply scale_eps_nonneg; rewrite eps_u; pose proof u64_pos; lra). rewrite (Rabs_right (sc _ _)) in S' by lra.
  apply Rabs_le_inv in S'. pose proof (Rabs_triang (rnd (val x - val y)) ((val x - val y) - rnd (val x - val y))) as T. replace (rnd (val x - val y) + (val x - val y - rnd (val x - val y))) with (val x - val y) in T by ring.
  rewrite (Rabs_minus_sym (val x - val y) (rnd _)) in T. lra.
Qed.
End Cmp.

(** ** Sums of products of rounded differences *)
Section Sums.
Variables (n : nat) (a b x y : nat -> R).
Hypothesis Ha : forall i, (i < n)%nat -> Rabs (a i - x i) <= u64 * Rabs (x i).
Hypothesis Hb : forall i, (i < n)%nat -> Rabs (b i - y i) <= u64 * Rabs (y i).
Let K := Rsum n (fun i => Rabs (x i * y i)).
Lemma term_rel i : (i < n)%nat -> Rabs (a i * b i - x i * y i) <= 2.01 * u64 * Rabs (x i * y i).
Proof.
  intros Hi. pose proof u64_pos as [U0 _]. assert (B : Rabs (b i) <= (1 + u64) * Rabs (y i)) by (apply abs_rel; [lra|now apply Hb]).
  eapply Rle_trans; [exact (prod_close _ _ _ _ _ _ _ _ (Ha i Hi) (Hb i Hi) B (Rle_refl _))|]. rewrite Rabs_mult.
  replace (u64 * Rabs (x i) * ((1 + u64) * Rabs (y i)) + Rabs (x i) * (u64 * Rabs (y i))) with ((2 * u64 + 1 * (u64 * u64)) * (Rabs (x i) * Rabs (y i))) by ring.
  apply Rmult_le_compat_r; [apply Rmult_le_pos; apply Rabs_pos|]. pose proof (uu 1 ltac:(lra)). lra.
Qed.
Lemma sums_rel : Rabs (Rsum n (fun i => a i * b i) - Rsum n (fun i => x i * y i)) <= 2.01 * u64 * K.
Proof.
  rewrite <- Rsum_minus. eapply Rle_trans; [apply Rabs_Rsum|]. unfold K. rewrite <- Rsum_scal_l. apply Rsum_le. intros i Hi. now apply term_rel.
Qed.
Lemma abs_sum : Rsum n (fun i => Rabs (a i * b i)) <= (1 + 2.01 * u64) * K.
Proof.
  unfold K. rewrite <- Rsum_scal_l. apply Rsum_le. intros i Hi. pose proof (term_rel i Hi) as T.
  replace (a i * b i) with (x i * y i + (a i * b i - x i * y i)) by ring. eapply Rle_trans; [apply Rabs_triang|]. lra.
Qed.
Lemma K_norm : K <= sqrt (norm2 n x) * sqrt (norm2 n y).
Proof.
  rewrite <- sqrt_mult by apply norm2_nonneg. assert (P : 0 <= K) by (apply Rsum_nonneg; intros; apply Rabs_pos). rewrite <- (sqrt_Rsqr K P). apply sqrt_le_1_alt. unfold Rsqr.
  pose proof (cauchy_schwarz n (fun i => Rabs (x i)) (fun i => Rabs (y i))) as C. unfold norm2, inner in *.
  replace (Rsum n (fun i => Rabs (x i) * Rabs (y i))) with K in C by (apply Rsum_ext; intros; apply Rabs_mult).
  replace (Rsum n (fun i => Rabs (x i) * Rabs (x i))) with (Rsum n (fun i => x i * x i)) in C by (apply Rsum_ext; intros; rewrite <- Rabs_mult; symmetry; apply Rabs_pos_eq; nra).
  replace (Rsum n (fun i => Rabs (y i) * Rabs (y i))) with (Rsum n (fun i => y i * y i)) in C by (apply Rsum_ext; intros; rewrite <- Rabs_mult; symmetry; apply Rabs_pos_eq; nra). exact C.
Qed.
End Sums.

(** ** The test *)
Section Test.
Variable m : libm.
Variable n : nat.
Hypothesis Hn : (0 < n <= 6)%nat.
Lemma n6 : (Z.of_nat n <= 2 ^ 26)%Z /\ 1 <= INR n <= 6.
Proof. split; [lia|]. change 1 with (INR 1). replace 6 with (INR 6) by (simpl; lra). split; apply le_INR; lia. Qed.
Lemma lin K K' : 0 <= K -> K' <= (1 + 2.01 * u64) * K -> (INR n + 2) * u64 * K' + 2 * INR n * eta64 + 2.01 * u64 * K <= 10.1 * u64 * K + 12 * eta64.
Proof.
  intros P L. destruct n6 as [_ [N1 N2]]. pose proof u64_pos as [U0 _]. pose proof eta64_pos as E0.
  assert ((INR n + 2) * u64 * K' <= 8 * u64 * ((1 + 2.01 * u64) * K)).
  { eapply Rle_trans; [apply Rmult_le_compat_l; [apply Rmult_le_pos; lra|exact L]|]. apply Rmult_le_compat_r; [apply Rmult_le_pos; [|exact P]; lra|]. apply Rmult_le_compat_r; lra. }
  replace (8 * u64 * ((1 + 2.01 * u64) * K)) with ((8 * u64 + 16.08 * (u64 * u64)) * K) in H by lra.
  assert ((8 * u64 + 16.08 * (u64 * u64)) * K <= (8.01 * u64) * K) by (apply Rmult_le_compat_r; [exact P|]; pose proof (uu 16.08 ltac:(lra)); lra).
  assert (0 <= u64 * K) by (apply Rmult_le_pos; lra). assert (INR n * eta64 <= 6 * eta64) by (apply Rmult_le_compat_r; lra). lra.
Qed.
Lemma sub_rel p q : doubles n p -> doubles n q -> dist2 n (rco p) (rco q) <= bpow radix2 400 ->
  doubles n (vec_sub (H := B64 m) n p q) /\ forall i, (i < n)%nat -> Rabs (rco (vec_sub (H := B64 m) n p q) i - (rco p i - rco q i)) <= u64 * Rabs (rco p i - rco q i).
Proof.
  intros Dp Dq B. assert (Q : forall i, (i < n)%nat -> Rabs (rco p i - rco q i) <= big).
  { intros i Hi. pose proof (norm2_coord_le n (fun i => rco p i - rco q i) i Hi) as C. fold (dist2 n (rco p) (rco q)) in C. cbn beta in C.
    assert (Rabs (rco p i - rco q i) <= bpow radix2 200). { apply Rsqr_incr_0_var; [|left; apply bpow_gt_0]. rewrite <- Rsqr_abs. unfold Rsqr. rewrite <- bpow_plus. change (200 + 200)%Z with 400%Z. lra. }
    eapply Rle_trans; [exact H|]. apply bpow_le. lia. }
  destruct (sub_round m n p q Dp Dq Q) as [D E]. split; [exact D|]. intros i Hi. rewrite (E i Hi). unfold nearest.
  apply (rnd_add_err (rco p i) (- rco q i)); [|apply generic_format_opp]; [exact (fl_format _ (co_fl n p i Dp Hi))|exact (fl_format _ (co_fl n q i Dq Hi))].
Qed.

Variables (v w : coords spec_float) (x y : nat -> R).
Hypothesis Dv : doubles n v.
Hypothesis Dw : doubles n w.
Hypothesis Ha : forall i, (i < n)%nat -> Rabs (rco v i - x i) <= u64 * Rabs (x i).
Hypothesis Hb : forall i, (i < n)%nat -> Rabs (rco w i - y i) <= u64 * Rabs (y i).
Notation r := (sqrt (norm2 n x) * sqrt (norm2 n y)).
Hypothesis Hr : r <= bpow radix2 400.
Lemma r_pos : 0 <= r. Proof. apply Rmult_le_pos; apply sqrt_pos. Qed.
Lemma abs_dot : Rsum n (fun i => Rabs (rco v i * rco w i)) <= big / 2.
Proof.
  pose proof (abs_sum n _ _ _ _ Ha Hb) as A. pose proof (K_norm n x y) as B. pose proof u_tiny as U. pose proof u64_pos as [U0 _].
  eapply Rle_trans; [exact A|]. apply Rle_trans with (2 * bpow radix2 400). { apply Rmult_le_compat; [lra|apply Rsum_nonneg; intros; apply Rabs_pos|lra|lra]. }
  unfold big. change 1023%Z with (1 + (1 + (621 + 400)))%Z. rewrite !bpow_plus. change (bpow radix2 1) with 2. assert (1 <= bpow radix2 621) by (apply (bpow_le radix2 0); lia). pose proof (bpow_gt_0 radix2 400).
  assert (1 * bpow radix2 400 <= bpow radix2 621 * bpow radix2 400) by (apply Rmult_le_compat_r; lra). lra.
Qed.
Lemma dot_rel : fl (dot (H := B64 m) n v w) /\ exists s, Rabs (s - inner n x y) <= 10.1 * u64 * r + 12 * eta64 /\
  (val (dot (H := B64 m) n v w) = s \/ val (dot (H := B64 m) n v w) = 0 /\ Rabs s <= 121 * u64 * Rmin (sqrt (norm2 n x)) (sqrt (norm2 n y)) + eta64).
Proof.
  destruct (dot_ok m n v w (proj1 n6) Dv Dw abs_dot) as (F & s & Es & C). cbv zeta in *. split; [exact F|]. exists s. split.
  - pose proof (sums_rel n _ _ _ _ Ha Hb) as S1. pose proof (abs_sum n _ _ _ _ Ha Hb) as S2. pose proof (K_norm n x y) as S3.
    pose proof (lin _ _ ltac:(apply Rsum_nonneg; intros; apply Rabs_pos) S2) as L.
    change (Rsum n (fun i => rco v i * rco w i)) with (inner n (rco v) (rco w)) in S1. change (Rsum n (fun i => x i * y i)) with (inner n x y) in S1.
    replace (s - inner n x y) with ((s - inner n (rco v) (rco w)) + (inner n (rco v) (rco w) - inner n x y)) by ring. eapply Rle_trans; [apply Rabs_triang|].
    pose proof u64_pos as [U0 _]. assert (10.1 * u64 * Rsum n (fun i => Rabs (x i * y i)) <= 10.1 * u64 * r) by (apply Rmult_le_compat_l; [|exact S3]; lra). lra.
  - destruct C as [C|[C Q]]; [left; exact C|right; split; [exact C|]].
    assert (BB : forall z u, (forall i, (i < n)%nat -> Rabs (rco u i - z i) <= u64 * Rabs (z i)) -> forall i, (i < n)%nat -> Rabs (rco u i) <= (1 + u64) * sqrt (norm2 n z)).
    { intros z u Hz i Hi. pose proof u64_pos as [U0 _]. eapply Rle_trans; [apply abs_rel; [|exact (Hz i Hi)]; lra|]. apply Rmult_le_compat_l; [lra|]. rewrite <- sqrt_Rsqr_abs. apply sqrt_le_1_alt. now apply norm2_coord_le. }
    eapply Rle_trans; [exact (Q _ _ (BB x v Ha) (BB y w Hb))|]. apply Rplus_le_compat_r. pose proof u64_pos as [U0 _].
    unfold epsR. rewrite eps_u. set (A := sqrt (norm2 n x)). set (B := sqrt (norm2 n y)). assert (PA : 0 <= A) by apply sqrt_pos. assert (PB : 0 <= B) by apply sqrt_pos.
    assert (M : Rmin ((1 + u64) * A) ((1 + u64) * B) <= (1 + u64) * Rmin A B).
    { unfold Rmin at 2. destruct (Rle_dec A B); [apply Rmin_l|apply Rmin_r]. }
    assert (PM : 0 <= Rmin A B) by (apply Rmin_glb; auto).
    eapply Rle_trans; [apply Rmult_le_compat_l; [|exact M]; apply Rmult_le_pos; lra|].
    replace (2 * (60 * u64) * (1 + u64) * ((1 + u64) * Rmin A B)) with ((120 * u64 + (240 + 120 * u64) * (u64 * u64)) * Rmin A B) by ring. apply Rmult_le_compat_r; [exact PM|].
    pose proof u_tiny. pose proof (uu (240 + 120 * u64) ltac:(lra)). lra.
Qed.
End Test.

(** ** Putting it together *)
Section Reals.
Variables (r1 r2 : R).
Hypothesis H1 : bpow radix2 (-200) <= r1 <= bpow radix2 200.
Hypothesis H2 : bpow radix2 (-200) <= r2 <= bpow radix2 200.
Notation r := (r1 * r2).
Notation Z := (r1 * r1 * (r2 * r2)).
Lemma eta_small k : bpow radix2 (-900) <= k -> 1000000 * eta64 <= u64 * k.
Proof.
  intros Hk. pose proof u64_pos as [U0 _]. apply Rle_trans with (u64 * bpow radix2 (-900)); [|apply Rmult_le_compat_l; lra]. unfold eta64, u64. rewrite <- bpow_plus. change (-53 + -900)%Z with (20 + (102 + -1075))%Z.
  rewrite (bpow_plus radix2 20), (bpow_plus radix2 102). assert (1 <= bpow radix2 102) by (apply (bpow_le radix2 0); lia). pose proof (bpow_gt_0 radix2 (-1075)). assert (B20 : bpow radix2 20 = 1048576) by (unfold bpow; change (Z.pow_pos radix2 20) with 1048576%Z; lra).
  assert (1 * bpow radix2 (-1075) <= bpow radix2 102 * bpow radix2 (-1075)) by (apply Rmult_le_compat_r; lra). rewrite B20. lra.
Qed.
Lemma p1 : 0 < r1. Proof. pose proof (bpow_gt_0 radix2 (-200)). lra. Qed.
Lemma p2 : 0 < r2. Proof. pose proof (bpow_gt_0 radix2 (-200)). lra. Qed.
Lemma r_range : bpow radix2 (-400) <= r <= bpow radix2 400.
Proof.
  pose proof (bpow_gt_0 radix2 (-200)). change (-400)%Z with (-200 + -200)%Z. change 400%Z with (200 + 200)%Z. rewrite !bpow_plus. split; apply Rmult_le_compat; lra.
Qed.
Lemma Z_r : Z = r * r. Proof. ring. Qed.
Lemma Z_range : bpow radix2 (-800) <= Z <= bpow radix2 800.
Proof.
  pose proof (bpow_gt_0 radix2 (-400)). rewrite Z_r. pose proof r_range. change (-800)%Z with (-400 + -400)%Z. change 800%Z with (400 + 400)%Z. rewrite !bpow_plus. split; apply Rmult_le_compat; lra.
Qed.
Lemma eta_r : 1000000 * eta64 <= u64 * r. Proof. apply eta_small. eapply Rle_trans; [|apply r_range]. apply bpow_le. lia. Qed.
Lemma eta_Z : 1000000 * eta64 <= u64 * Z. Proof. apply eta_small. eapply Rle_trans; [|apply Z_range]. apply bpow_le. lia. Qed.
Lemma Z_big k : 0 <= k <= 10 -> k * Z <= big.
Proof.
  intros K. pose proof Z_range as [_ L]. apply Rle_trans with (bpow radix2 4 * bpow radix2 800). { apply Rmult_le_compat; [lra| |unfold bpow; simpl; lra|exact L]. pose proof (bpow_gt_0 radix2 (-800)). pose proof Z_range. lra. }
  rewrite <- bpow_plus. apply bpow_le. lia.
Qed.
Lemma sq_near s I : Rabs I <= r -> Rabs (s - I) <= 10.2 * u64 * r -> Rabs (s * s - I * I) <= 20.5 * u64 * Z.
Proof.
  intros BI E. pose proof u64_pos as [U0 _]. pose proof u_tiny. pose proof r_range. pose proof (bpow_gt_0 radix2 (-400)). assert (Bs : Rabs s <= (1 + 10.2 * u64) * r).
  { replace s with (I + (s - I)) by ring. eapply Rle_trans; [apply Rabs_triang|]. lra. }
  eapply Rle_trans; [apply (prod_close _ _ _ _ _ _ _ _ E E Bs BI)|]. rewrite Z_r. apply Rle_trans with ((20.4 * u64 + 104.04 * (u64 * u64)) * (r * r)); [lra|]. apply Rmult_le_compat_r; [apply Rmult_le_pos; lra|]. pose proof (uu 104.04 ltac:(lra)). lra.
Qed.
(** The computed squares: [D] of the product, [P] of the two lengths. *)
Variables (s I D P : R).
Hypothesis BI : Rabs I <= r.
Hypothesis Es : Rabs (s - I) <= 10.2 * u64 * r.
Hypothesis ED : D = rnd (s * s).
Hypothesis EP : Rabs (P - Z) <= 23.1 * u64 * Z.
Lemma D_near : Rabs (D - I * I) <= 21.6 * u64 * Z.
Proof.
  pose proof (sq_near s I BI Es) as Q. pose proof (rnd_err (s * s)) as R'. rewrite <- ED in R'. pose proof eta_Z. pose proof u64_pos as [U0 _]. pose proof u_tiny. pose proof Z_range. pose proof (bpow_gt_0 radix2 (-800)).
  assert (I * I <= Z). { rewrite Z_r. rewrite <- (Rabs_pos_eq (I * I)) by nra. apply prod_size; exact BI. }
  assert (Rabs (s * s) <= (1 + 20.5 * u64) * Z). { replace (s * s) with (I * I + (s * s - I * I)) by ring. eapply Rle_trans; [apply Rabs_triang|]. rewrite (Rabs_pos_eq (I * I)) by nra. lra. }
  assert (u64 * Rabs (s * s) <= u64 * ((1 + 20.5 * u64) * Z)) by (apply Rmult_le_compat_l; lra).
  assert (u64 * ((1 + 20.5 * u64) * Z) <= 1.01 * u64 * Z). { apply Rle_trans with ((u64 + 20.5 * (u64 * u64)) * Z); [lra|]. apply Rmult_le_compat_r; [lra|]. pose proof (uu 20.5 ltac:(lra)). lra. }
  assert (0 <= u64 * Z) by (apply Rmult_le_pos; lra). replace (D - I * I) with ((D - s * s) + (s * s - I * I)) by ring. eapply Rle_trans; [apply Rabs_triang|]. lra.
Qed.
Notation sc x y := (scale_eps (H := Rnum (val b64_eps)) x y (val b64_eps)).
Lemma uZ : 0 < Z /\ 0 < u64 * Z /\ u64 * (u64 * Z) <= u64 * Z / 10 ^ 12.
Proof.
  pose proof u64_pos as [U0 _]. pose proof u_tiny as U. pose proof Z_range. pose proof (bpow_gt_0 radix2 (-800)). assert (0 < Z) by lra. assert (0 < u64 * Z) by (apply Rmult_lt_0_compat; lra).
  split; [lra|]. split; [lra|]. unfold Rdiv. rewrite (Rmult_comm (u64 * Z)). apply Rmult_le_compat_r; lra.
Qed.
Lemma P_pos : 0 < P.
Proof. pose proof uZ as (Z0 & UZ & _). pose proof u_tiny as U. apply Rabs_le_inv in EP. assert (u64 * Z <= Z / 10 ^ 12) by (unfold Rdiv; rewrite (Rmult_comm Z); apply Rmult_le_compat_r; lra). lra. Qed.
Lemma on_it : I * I = Z -> Rabs (D - P) <= sc D P.
Proof.
  intros E. pose proof D_near as DN. rewrite E in DN. pose proof uZ as (Z0 & UZ & UU). pose proof u_tiny as U. pose proof P_pos as PP. pose proof EP as EP'. apply Rabs_le_inv in EP'. apply Rabs_le_inv in DN.
  assert (UZ' : u64 * Z <= Z / 10 ^ 12) by (unfold Rdiv; rewrite (Rmult_comm Z); apply Rmult_le_compat_r; lra). assert (DP : 0 < D) by lra.
  pose proof u64_pos as [U0 _]. pose proof (scale_eps_bounds (val b64_eps) D P (val b64_eps) ltac:(rewrite eps_u; lra) ltac:(lra) ltac:(lra)) as [B _]. rewrite !(Rabs_pos_eq D), !(Rabs_pos_eq P) in B by lra.
  eapply Rle_trans; [|exact B]. rewrite eps_u.
  assert ((1 - 24 * u64) * Z <= Rmin D P) by (apply Rmin_glb; lra).
  assert (60 * u64 * ((1 - 24 * u64) * Z) <= 60 * u64 * Rmin D P) by (apply Rmult_le_compat_l; lra).
  assert (50 * (u64 * Z) <= 60 * u64 * ((1 - 24 * u64) * Z)). { apply Rle_trans with (60 * (u64 * Z) - 1440 * (u64 * (u64 * Z))); [lra|right; ring]. }
  apply Rabs_le. lra.
Qed.
Lemma accepted_near : s <= 61 * u64 -> Rabs (D - P) * (1 - u64) <= (1 + u64) * sc D P + eta64 -> Z <= 2 * val b64_eps \/ I <= 0 /\ Z - I * I <= 3 * val b64_eps * Z.
Proof.
  intros Ls A. pose proof D_near as DN. pose proof uZ as (Z0 & UZ & UU). pose proof u_tiny as U. pose proof P_pos as PP. pose proof EP as EP'. apply Rabs_le_inv in EP'. apply Rabs_le_inv in DN.
  assert (UZ' : u64 * Z <= Z / 10 ^ 12) by (unfold Rdiv; rewrite (Rmult_comm Z); apply Rmult_le_compat_r; lra). pose proof u64_pos as [U0 _]. pose proof eta_Z as EZ.
  assert (D0 : 0 <= D). { rewrite ED. apply rnd_nonneg. nra. }
  assert (AP : u64 * P <= u64 * (1.01 * Z)) by (apply Rmult_le_compat_l; lra).
  destruct (Req_dec D 0) as [DZ|DN0].
  { left. rewrite DZ in A. rewrite (scale_eps_zero (val b64_eps)) in A by (now left). replace (0 - P) with (- P) in A by ring. rewrite Rabs_Ropp, Rabs_pos_eq in A by lra.
    rewrite eps_u in *. pose proof (uu 60 ltac:(lra)). lra. }
  assert (DP : 0 < D) by lra.
  pose proof (scale_eps_bounds (val b64_eps) D P (val b64_eps) ltac:(rewrite eps_u; lra) ltac:(lra) ltac:(lra)) as [_ B]. rewrite !(Rabs_pos_eq D), !(Rabs_pos_eq P) in B by lra.
  assert (B' : sc D P <= 120 * (u64 * P)). { eapply Rle_trans; [exact B|]. rewrite eps_u. assert (2 * (60 * u64) * Rmin D P <= 2 * (60 * u64) * P) by (apply Rmult_le_compat_l; [lra|apply Rmin_r]). lra. }
  assert (P' : u64 * P <= 1.001 * (u64 * Z)). { assert (u64 * P <= u64 * (Z + 23.1 * (u64 * Z))) by (apply Rmult_le_compat_l; lra). lra. }
  assert (S0 : 0 <= sc D P) by (apply scale_eps_nonneg; rewrite eps_u; lra).
  assert (B2 : (1 + u64) * sc D P <= 1.001 * (120 * (u64 * P))) by (apply Rmult_le_compat; lra).
  assert (X : Rabs (D - P) <= 121 * (u64 * Z)).
  { assert (0.999 * Rabs (D - P) <= Rabs (D - P) * (1 - u64)) by (rewrite Rmult_comm; apply Rmult_le_compat_l; [apply Rabs_pos|lra]). lra. }
  apply Rabs_le_inv in X. assert (Y : Z - I * I <= 167 * (u64 * Z)) by lra. rewrite eps_u.
  destruct (Rle_or_lt I 0) as [LI|PI]; [right; split; lra|left].
  pose proof r_range as RR. pose proof (bpow_gt_0 radix2 (-400)) as R0. rewrite Z_r in *. assert (0.99 * r <= I). { apply Rsqr_incr_0_var; [unfold Rsqr|lra]. lra. }
  apply Rabs_le_inv in Es. assert (u64 * r <= r / 10 ^ 12) by (unfold Rdiv; rewrite (Rmult_comm r); apply Rmult_le_compat_r; lra). assert (r <= 63 * u64) by lra.
  assert (r * r <= 63 * u64 * (63 * u64)) by (apply Rmult_le_compat; lra). pose proof (uu 3969 ltac:(lra)). lra.
Qed.
(** The product may have been replaced by zero, on a very short segment. *)
Lemma clamped : I * I = Z -> Rabs s <= 121 * u64 * Rmin r1 r2 + eta64 -> P <= val b64_eps.
Proof.
  intros E C. pose proof uZ as (Z0 & UZ & UU). pose proof u_tiny as U. pose proof u64_pos as [U0 _]. pose proof r_range as RR. pose proof (bpow_gt_0 radix2 (-400)) as R0. pose proof p1. pose proof p2. pose proof eta_r as ER.
  assert (EI : Rabs I = r). { rewrite <- (Rabs_pos_eq r) by lra. apply Rsqr_eq_abs_0. unfold Rsqr. rewrite E. apply Z_r. }
  assert (u64 * r <= r / 10 ^ 12) by (unfold Rdiv; rewrite (Rmult_comm r); apply Rmult_le_compat_r; lra).
  assert (L : 0.99 * r <= 121 * u64 * Rmin r1 r2). { pose proof (Rabs_triang s (I - s)) as T. replace (s + (I - s)) with I in T by ring. rewrite (Rabs_minus_sym I s), EI in T. lra. }
  assert (M : r <= 125 * u64 * (125 * u64)).
  { unfold Rmin in L. destruct (Rle_dec r1 r2).
    - assert (r2 <= 125 * u64) by (apply Rmult_le_reg_l with r1; lra). apply Rmult_le_compat; lra.
    - assert (r1 <= 125 * u64) by (apply Rmult_le_reg_l with r2; lra). apply Rmult_le_compat; lra. }
  pose proof (uu 15625 ltac:(lra)). assert (M' : r <= u64 / 1000) by lra. assert (r * r <= 1 * (u64 / 1000)) by (apply Rmult_le_compat; lra). apply Rabs_le_inv in EP. rewrite Z_r in *. rewrite eps_u.
  assert (u64 * (r * r) <= 1 * (r * r)) by (apply Rmult_le_compat_r; [apply Rmult_le_pos; lra|lra]). lra.
Qed.
End Reals.

Section Final.
Variable m : libm.
Variable n : nat.
Hypothesis Hn : (0 < n <= 6)%nat.
Variables (s : segment spec_float) (p : point spec_float).
Hypothesis D1 : doubles n (end1 s).
Hypothesis D2 : doubles n (end2 s).
Hypothesis Dp : doubles n p.
Let x := fun i => rco (end1 s) i - rco p i.
Let y := fun i => rco (end2 s) i - rco p i.
Notation m1 := (dist2 n (rco (end1 s)) (rco p)).
Notation m2 := (dist2 n (rco (end2 s)) (rco p)).
Hypothesis U1 : m1 <= bpow radix2 400.
Hypothesis U2 : m2 <= bpow radix2 400.
Let v := vec_sub (H := B64 m) n (end1 s) p.
Let w := vec_sub (H := B64 m) n (end2 s) p.
Let d := dot (H := B64 m) n v w.
Lemma Dv : doubles n v. Proof. apply (sub_rel m n); auto. Qed.
Lemma Dw : doubles n w. Proof. apply (sub_rel m n); auto. Qed.
Lemma Rv : forall i, (i < n)%nat -> Rabs (rco v i - x i) <= u64 * Rabs (x i). Proof. apply (sub_rel m n); auto. Qed.
Lemma Rw : forall i, (i < n)%nat -> Rabs (rco w i - y i) <= u64 * Rabs (y i). Proof. apply (sub_rel m n); auto. Qed.
Lemma rco_fun q : rco q = co (dval q). Proof. apply functional_extensionality. intros i. apply rco_dval. Qed.
Lemma sqrt_up k : k <= bpow radix2 400 -> sqrt k <= bpow radix2 200.
Proof.
  intros L. rewrite <- (sqrt_Rsqr (bpow radix2 200)) by (left; apply bpow_gt_0). apply sqrt_le_1_alt. unfold Rsqr. rewrite <- bpow_plus. exact L.
Qed.
Lemma sqrt_low k : bpow radix2 (-400) <= k -> bpow radix2 (-200) <= sqrt k.
Proof.
  intros L. rewrite <- (sqrt_Rsqr (bpow radix2 (-200))) by (left; apply bpow_gt_0). apply sqrt_le_1_alt. unfold Rsqr. rewrite <- bpow_plus. exact L.
Qed.
Lemma rr a b : a <= bpow radix2 400 -> b <= bpow radix2 400 -> sqrt a * sqrt b <= bpow radix2 400.
Proof. intros A B. change 400%Z with (200 + 200)%Z. rewrite bpow_plus. apply Rmult_le_compat; try apply sqrt_pos; now apply sqrt_up. Qed.
(** The squared lengths. *)
Lemma sqr_rel2 a z : doubles n a -> (forall i, (i < n)%nat -> Rabs (rco a i - z i) <= u64 * Rabs (z i)) -> norm2 n z <= bpow radix2 400 ->
  fl (sqr_mag (H := B64 m) n a) /\ 0 <= val (sqr_mag (H := B64 m) n a) /\ Rabs (val (sqr_mag (H := B64 m) n a) - norm2 n z) <= 10.1 * u64 * norm2 n z + 12 * eta64.
Proof.
  intros Da Ha B. pose proof (abs_dot n Hn a a z z Ha Ha (rr _ _ B B)) as L. rewrite norm2_abs in L.
  destruct (sqr_mag_ok m n a (proj1 (n6 n Hn)) Da L) as (F & P & E). cbv zeta in *. split; [exact F|]. split; [exact P|].
  pose proof (sums_rel n _ _ _ _ Ha Ha) as S1. pose proof (abs_sum n _ _ _ _ Ha Ha) as S2. rewrite norm2_abs in S2.
  assert (K : Rsum n (fun i => Rabs (z i * z i)) = norm2 n z) by (apply Rsum_ext; intros; apply Rabs_pos_eq; nra). rewrite K in *.
  pose proof (lin n Hn _ _ (norm2_nonneg n z) S2) as T. change (Rsum n (fun i => rco a i * rco a i)) with (norm2 n (rco a)) in S1. change (Rsum n (fun i => z i * z i)) with (norm2 n z) in S1.
  replace (val (sqr_mag (H := B64 m) n a) - norm2 n z) with ((val (sqr_mag (H := B64 m) n a) - norm2 n (rco a)) + (norm2 n (rco a) - norm2 n z)) by ring. eapply Rle_trans; [apply Rabs_triang|]. lra.
Qed.
Let S1 := sqr_mag (H := B64 m) n v.
Let S2 := sqr_mag (H := B64 m) n w.
Lemma split_test proper : i_seg_point (H := B64 m) n s p proper = if greater_ (H := B64 m) d (n0 (H := B64 m)) proper then false else equal (H := B64 m) (SFmul prec64 emax64 d d) (SFmul prec64 emax64 S1 S2) (neps (Num := B64 m)).
Proof. reflexivity. Qed.
Lemma eta_1 : 1000000 * eta64 <= u64. Proof. pose proof (eta_small 1) as H. rewrite Rmult_1_r in H. apply H. change 1 with (bpow radix2 0). apply bpow_le. lia. Qed.

(** One end is the point. *)
Lemma zero_end : m1 = 0 \/ m2 = 0 -> i_seg_point (H := B64 m) n s p false = true.
Proof.
  intros Hz. pose proof (sqr_rel2 v x Dv Rv U1) as (F1 & P1 & E1). pose proof (sqr_rel2 w y Dw Rw U2) as (F2 & P2 & E2). fold S1 in F1, P1, E1. fold S2 in F2, P2, E2. change (norm2 n x) with m1 in E1. change (norm2 n y) with m2 in E2.
  destruct (dot_rel m n Hn v w x y Dv Dw Rv Rw (rr _ _ U1 U2)) as (Fd & t & Et & Ct). fold d in Fd, Ct. change (norm2 n x) with m1 in Et. change (norm2 n y) with m2 in Et.
  assert (R0 : sqrt m1 * sqrt m2 = 0) by (destruct Hz as [-> | ->]; rewrite sqrt_0; ring). rewrite R0 in Et.
  assert (I0 : inner n x y = 0).
  { pose proof (cauchy_schwarz n x y) as C. change (norm2 n x) with m1 in C. change (norm2 n y) with m2 in C. assert (m1 * m2 = 0) by (destruct Hz as [-> | ->]; ring). nra. }
  rewrite I0, Rminus_0_r in Et. pose proof eta_1 as E0. pose proof eta64_pos as Ep. pose proof u64_pos as [Up _]. pose proof u_tiny as Ut.
  assert (Bd : Rabs (val d) <= 12 * eta64). { destruct Ct as [-> | [-> _]]; [lra|rewrite Rabs_R0; lra]. }
  pose proof (Rabs_le_inv _ _ Bd) as Bd'.
  assert (Bdd : Rabs (val d * val d) <= 12 * eta64 * (12 * eta64)) by (now apply prod_size).
  assert (SM : 12 * eta64 * (12 * eta64) <= bpow radix2 (-2000)).
  { apply Rle_trans with (bpow radix2 4 * eta64 * (bpow radix2 4 * eta64)); [assert (12 * eta64 <= bpow radix2 4 * eta64) by (apply Rmult_le_compat_r; [lra|unfold bpow; simpl; lra]); apply Rmult_le_compat; lra|]. unfold eta64. rewrite <- !bpow_plus. apply bpow_le. lia. }
  assert (BIG : bpow radix2 (-2000) <= big) by (apply bpow_le; lia).
  destruct (mul_ok d d Fd Fd ltac:(lra)) as [FD ED].
  assert (D0 : val (SFmul prec64 emax64 d d) = 0).
  { rewrite ED. assert (A : Rabs (rnd (val d * val d)) <= 0); [|apply Rabs_le_inv in A; lra]. rewrite rnd_abs_eq.
    assert (Q : rnd (bpow radix2 (-2000)) = 0). { apply (round_N_small radix2 (FLT_exp (-1074) 53) _ (bpow radix2 (-2000)) (-1999)); [rewrite Rabs_pos_eq by (left; apply bpow_gt_0); split; [right; reflexivity|apply bpow_lt; lia]|unfold FLT_exp; lia]. }
    rewrite <- Q. apply rnd_mono. lra. }
  assert (Sm : Rabs (val S1 * val S2) <= u64).
  { rewrite Rabs_mult, (Rabs_pos_eq (val S1)), (Rabs_pos_eq (val S2)) by auto. assert (W : forall a b sa sb, a = 0 -> b <= bpow radix2 400 -> 0 <= b -> 0 <= sa -> 0 <= sb -> Rabs (sa - a) <= 10.1 * u64 * a + 12 * eta64 -> Rabs (sb - b) <= 10.1 * u64 * b + 12 * eta64 -> sa * sb <= u64).
    { intros a b sa sb -> Lb Pb Pa Psb Ea Eb. rewrite Rminus_0_r, Rabs_pos_eq in Ea by auto. apply Rabs_le_inv in Eb. assert (1 <= bpow radix2 400) by (apply (bpow_le radix2 0); lia).
      assert (u64 * b <= 0.01 * b) by (apply Rmult_le_compat_r; lra). assert (sb <= 2 * bpow radix2 400) by lra. apply Rle_trans with (bpow radix2 4 * eta64 * (2 * bpow radix2 400)); [apply Rmult_le_compat; auto; apply Rle_trans with (12 * eta64); [lra|]; apply Rmult_le_compat_r; [lra|unfold bpow; simpl; lra]|].
      change 2 with (bpow radix2 1). unfold eta64, u64. rewrite <- !bpow_plus. apply bpow_le. lia. }
    destruct Hz as [Hz|Hz]; [exact (W m1 m2 _ _ Hz U2 (norm2_nonneg _ _) P1 P2 E1 E2)|rewrite Rmult_comm; exact (W m2 m1 _ _ Hz U1 (norm2_nonneg _ _) P2 P1 E2 E1)]. }
  assert (UB : u64 <= big) by (apply bpow_le; lia).
  destruct (mul_ok S1 S2 F1 F2 ltac:(lra)) as [FP EP].
  assert (BP : Rabs (val (SFmul prec64 emax64 S1 S2)) <= u64) by (rewrite EP; apply (rnd_abs_le _ (-53)); [lia|exact Sm]).
  rewrite split_test. rewrite greater_no; [|exact Fd|apply n0_ok|rewrite (proj2 (n0_ok m)), Rminus_0_r; unfold big; assert (u64 <= bpow radix2 1023) by (apply bpow_le; lia); lra|rewrite (proj2 (n0_ok m)); lra].
  apply equal_yes; auto; rewrite D0; rewrite ?(scale_eps_zero (val b64_eps)) by (now left); unfold Rminus; rewrite Rplus_0_l, Rabs_Ropp; [lra|rewrite eps_u; lra].
Qed.

Section Away.
Hypothesis L1 : bpow radix2 (-400) <= m1.
Hypothesis L2 : bpow radix2 (-400) <= m2.
Let r1 := sqrt m1. Let r2 := sqrt m2.
Let I := inner n x y.
Lemma rg1 : bpow radix2 (-200) <= r1 <= bpow radix2 200. Proof. split; [now apply sqrt_low|now apply sqrt_up]. Qed.
Lemma rg2 : bpow radix2 (-200) <= r2 <= bpow radix2 200. Proof. split; [now apply sqrt_low|now apply sqrt_up]. Qed.
Lemma q1 : r1 * r1 = m1. Proof. apply sqrt_sqrt. apply norm2_nonneg. Qed.
Lemma q2 : r2 * r2 = m2. Proof. apply sqrt_sqrt. apply norm2_nonneg. Qed.
Lemma I_r : Rabs I <= r1 * r2.
Proof.
  pose proof (p1 _ rg1). pose proof (p2 _ rg2). apply Rsqr_incr_0_var; [|apply Rmult_le_pos; lra]. rewrite <- Rsqr_abs. unfold Rsqr. replace (r1 * r2 * (r1 * r2)) with (r1 * r1 * (r2 * r2)) by ring. rewrite q1, q2. apply cauchy_schwarz.
Qed.
Lemma facts : fl d /\ fl (SFmul prec64 emax64 d d) /\ val (SFmul prec64 emax64 d d) = rnd (val d * val d) /\ fl (SFmul prec64 emax64 S1 S2) /\
  Rabs (val (SFmul prec64 emax64 S1 S2) - r1 * r1 * (r2 * r2)) <= 23.1 * u64 * (r1 * r1 * (r2 * r2)) /\ Rabs (val d) <= 2 * (r1 * r2) /\
  exists t, Rabs (t - I) <= 10.2 * u64 * (r1 * r2) /\ (val d = t \/ val d = 0 /\ Rabs t <= 121 * u64 * Rmin r1 r2 + eta64).
Proof.
  pose proof (sqr_rel2 v x Dv Rv U1) as (F1 & P1 & E1). pose proof (sqr_rel2 w y Dw Rw U2) as (F2 & P2 & E2). fold S1 in F1, P1, E1. fold S2 in F2, P2, E2. change (norm2 n x) with m1 in E1. change (norm2 n y) with m2 in E2.
  destruct (dot_rel m n Hn v w x y Dv Dw Rv Rw (rr _ _ U1 U2)) as (Fd & t & Et & Ct). fold d in Fd, Ct. change (norm2 n x) with m1 in Et, Ct. change (norm2 n y) with m2 in Et, Ct. fold r1 r2 in Et, Ct. fold I in Et.
  pose proof (eta_r r1 r2 rg1 rg2) as Er. pose proof (eta_Z r1 r2 rg1 rg2) as EZ. pose proof u64_pos as [Up _]. pose proof u_tiny as Ut. pose proof eta64_pos as Ep. pose proof (p1 _ rg1) as R1. pose proof (p2 _ rg2) as R2. pose proof I_r as IR.
  assert (Rp : 0 < r1 * r2) by (apply Rmult_lt_0_compat; auto). assert (Et' : Rabs (t - I) <= 10.2 * u64 * (r1 * r2)) by lra.
  assert (ur : u64 * (r1 * r2) <= 0.01 * (r1 * r2)) by (apply Rmult_le_compat_r; lra).
  assert (Bd : Rabs (val d) <= 2 * (r1 * r2)). { destruct Ct as [-> | [-> _]]; [|rewrite Rabs_R0; lra]. replace t with (I + (t - I)) by ring. eapply Rle_trans; [apply Rabs_triang|]. lra. }
  assert (Bdd : Rabs (val d * val d) <= big). { eapply Rle_trans; [apply (prod_size _ _ _ _ Bd Bd)|]. eapply Rle_trans; [|apply (Z_big r1 r2 rg1 rg2 4); lra]. right. ring. }
  destruct (mul_ok d d Fd Fd Bdd) as [FD ED].
  assert (G : forall k, bpow radix2 (-400) <= k -> 12 * eta64 <= 0.1 * u64 * k). { intros k Hk. pose proof (eta_small k) as Q. assert (bpow radix2 (-900) <= k) by (eapply Rle_trans; [apply bpow_le|exact Hk]; lia). specialize (Q H). lra. }
  pose proof (bpow_gt_0 radix2 (-400)) as B4. pose proof (G _ L1) as G1. pose proof (G _ L2) as G2.
  assert (um1 : 0 <= u64 * m1) by (apply Rmult_le_pos; lra). assert (um2 : 0 <= u64 * m2) by (apply Rmult_le_pos; lra).
  assert (PR : Rabs (val S1 * val S2 - m1 * m2) <= 22.01 * u64 * (m1 * m2)) by (apply prod_rel; lra).
  rewrite <- q1, <- q2 in PR. pose proof (uZ r1 r2 rg1 rg2) as (Z0 & UZ & _).
  assert (BP : Rabs (val S1 * val S2) <= big). { eapply Rle_trans; [|apply (Z_big r1 r2 rg1 rg2 2); lra]. replace (val S1 * val S2) with (r1 * r1 * (r2 * r2) + (val S1 * val S2 - r1 * r1 * (r2 * r2))) by ring. eapply Rle_trans; [apply Rabs_triang|]. rewrite (Rabs_pos_eq (r1 * r1 * (r2 * r2))) by lra. assert (u64 * (r1 * r1 * (r2 * r2)) <= 0.01 * (r1 * r1 * (r2 * r2))) by (apply Rmult_le_compat_r; lra). lra. }
  destruct (mul_ok S1 S2 F1 F2 BP) as [FP EP].
  do 3 (split; [assumption|]). split; [exact FP|]. split; [rewrite EP; apply round_rel; [lra|lra|exact PR]|]. split; [exact Bd|]. exists t. split; [exact Et'|exact Ct].
Qed.
Lemma diff_big : Rabs (val (SFmul prec64 emax64 d d) - val (SFmul prec64 emax64 S1 S2)) <= big.
Proof.
  destruct facts as (Fd & FD & ED & FP & EP & Bd & _). pose proof (uZ r1 r2 rg1 rg2) as (Z0 & UZ & _). pose proof u_tiny as Ut. pose proof u64_pos as [Up _]. pose proof (eta_Z r1 r2 rg1 rg2) as EZ. pose proof eta64_pos as Ep.
  set (Z := r1 * r1 * (r2 * r2)) in *. assert (A : Rabs (val d * val d) <= 4 * Z). { eapply Rle_trans; [apply (prod_size _ _ _ _ Bd Bd)|]. right. unfold Z. ring. }
  pose proof (rnd_err (val d * val d)) as E. rewrite <- ED in E. assert (UZ2 : u64 * Z <= 0.01 * Z) by (apply Rmult_le_compat_r; lra). assert (u64 * Rabs (val d * val d) <= u64 * (4 * Z)) by (apply Rmult_le_compat_l; lra).
  eapply Rle_trans; [|apply (Z_big r1 r2 rg1 rg2 10); lra]. fold Z. apply Rabs_le_inv in E, A, EP. apply Rabs_le. lra.
Qed.
Lemma inside proper : in_segment n (dseg s) (rco p) -> (proper = true -> 3 * val b64_eps <= Rmax r1 r2) -> i_seg_point (H := B64 m) n s p proper = true.
Proof.
  intros Hs Far. change (SegProofs.on n (co (dval (end1 s))) (co (dval (end2 s))) (rco p)) in Hs. rewrite <- !rco_fun in Hs. destruct (proj2 (SegProofs.seg_point_geo n (rco (end1 s)) (rco (end2 s)) (rco p)) Hs) as [LI CI]. fold x y in LI, CI. fold I in LI, CI. change (norm2 n x) with m1 in CI. change (norm2 n y) with m2 in CI. rewrite <- q1, <- q2 in CI.
  destruct facts as (Fd & FD & ED & FP & EP & Bd & t & Et & Ct). pose proof I_r as IR. pose proof u64_pos as [Up _]. pose proof u_tiny as Ut. pose proof (p1 _ rg1) as R1. pose proof (p2 _ rg2) as R2. assert (Rp : 0 < r1 * r2) by (apply Rmult_lt_0_compat; auto).
  assert (EI : I = - (r1 * r2)). { assert (K : Rsqr I = Rsqr (r1 * r2)) by (unfold Rsqr; rewrite CI; ring). apply Rsqr_eq in K. destruct K as [K|K]; lra. }
  assert (Nt : t <= - 0.9 * (r1 * r2)). { rewrite EI in Et. apply Rabs_le_inv in Et. assert (u64 * (r1 * r2) <= 0.001 * (r1 * r2)) by (apply Rmult_le_compat_r; lra). lra. }
  assert (Ld : val d <= 0) by (destruct Ct as [-> | [-> _]]; lra).
  assert (Lp : proper = true -> val d = t).
  { intros Hp. destruct Ct as [C|[C Q]]; [exact C|exfalso]. specialize (Far Hp). rewrite eps_u in Far. pose proof (eta_r r1 r2 rg1 rg2) as Er. rewrite Rabs_left in Q by lra.
    assert (u64 * (r1 * r2) <= 0.001 * (r1 * r2)) by (apply Rmult_le_compat_r; lra). assert (Q' : 0.89 * (r1 * r2) <= 121 * u64 * Rmin r1 r2) by lra. unfold Rmin in Q'. unfold Rmax in Far. destruct (Rle_dec r1 r2).
    - assert (r2 <= 140 * u64) by (apply Rmult_le_reg_l with r1; lra). lra.
    - assert (r1 <= 140 * u64) by (apply Rmult_le_reg_l with r2; lra). lra. }
  assert (G : greater_ (H := B64 m) d (n0 (H := B64 m)) proper = false).
  { destruct proper.
    - rewrite greater_proper by (auto; apply n0_ok). rewrite (proj2 (n0_ok m)). apply Rle_bool_false. rewrite (Lp eq_refl). lra.
    - apply greater_no; [exact Fd|apply n0_ok| |]; rewrite (proj2 (n0_ok m)), Rminus_0_r; [|lra]. eapply Rle_trans; [exact Bd|]. pose proof (r_range r1 r2 rg1 rg2) as [_ L]. apply Rle_trans with (bpow radix2 1 * bpow radix2 400); [change (bpow radix2 1) with 2; lra|rewrite <- bpow_plus; apply bpow_le; lia]. }
  rewrite split_test, G. apply equal_yes; auto; [exact diff_big|]. destruct Ct as [C|[C Q]].
  - apply (on_it r1 r2 rg1 rg2 t I); auto. rewrite ED, C. reflexivity.
  - pose proof (clamped r1 r2 rg1 rg2 t I _ Et EP CI Q) as B. rewrite ED, C, Rmult_0_l, rnd_0. rewrite (scale_eps_zero (val b64_eps)) by (now left). unfold Rminus. rewrite Rplus_0_l, Rabs_Ropp, Rabs_pos_eq; [exact B|]. pose proof (P_pos r1 r2 rg1 rg2 _ EP). lra.
Qed.
Lemma accepted proper : i_seg_point (H := B64 m) n s p proper = true ->
  (exists z, in_segment n (dseg s) z /\ dist2 n (rco p) z <= 3 * val b64_eps * Rmin m1 m2) \/ m1 * m2 <= 2 * val b64_eps.
Proof.
  rewrite split_test. destruct (greater_ (H := B64 m) d (n0 (H := B64 m)) proper) eqn:G; [discriminate|]. intros Q.
  destruct facts as (Fd & FD & ED & FP & EP & Bd & t & Et & Ct). pose proof I_r as IR. pose proof u64_pos as [Up _]. pose proof u_tiny as Ut.
  assert (Ld : val d <= 61 * u64).
  { destruct proper.
    - rewrite greater_proper in G by (auto; apply n0_ok). rewrite (proj2 (n0_ok m)) in G. destruct (Rle_bool_spec 0 (val d)); [discriminate|lra].
    - apply greater_yes in G; [rewrite (proj2 (n0_ok m)) in G; lra|exact Fd|apply n0_ok|]. rewrite (proj2 (n0_ok m)), Rminus_0_r. eapply Rle_trans; [exact Bd|]. pose proof (r_range r1 r2 rg1 rg2) as [_ L]. apply Rle_trans with (bpow radix2 1 * bpow radix2 400); [change (bpow radix2 1) with 2; lra|rewrite <- bpow_plus; apply bpow_le; lia]. }
  apply equal_then in Q; auto; [|exact diff_big].
  assert (C : r1 * r1 * (r2 * r2) <= 2 * val b64_eps \/ I <= 0 /\ r1 * r1 * (r2 * r2) - I * I <= 3 * val b64_eps * (r1 * r1 * (r2 * r2))).
  { destruct Ct as [C|[C _]].
    - apply (accepted_near r1 r2 rg1 rg2 t I (val (SFmul prec64 emax64 d d)) (val (SFmul prec64 emax64 S1 S2))); auto; [rewrite ED, C; reflexivity|lra].
    - left. rewrite ED, C, Rmult_0_l, rnd_0 in Q. rewrite (scale_eps_zero (val b64_eps)) in Q by (now left). pose proof (P_pos r1 r2 rg1 rg2 _ EP) as PP. unfold Rminus at 1 in Q. rewrite Rplus_0_l, Rabs_Ropp, Rabs_pos_eq in Q by lra.
      pose proof (uZ r1 r2 rg1 rg2) as (Z0 & UZ & _). set (P := val (SFmul prec64 emax64 S1 S2)) in *. set (Z := r1 * r1 * (r2 * r2)) in *. pose proof (eta_Z r1 r2 rg1 rg2) as EZ. fold Z in EZ. rewrite eps_u in *. apply Rabs_le_inv in EP. assert (u64 * Z <= 0.001 * Z) by (apply Rmult_le_compat_r; lra). assert (u64 * P <= 0.001 * P) by (apply Rmult_le_compat_r; lra). pose proof (uu 60 ltac:(lra)). lra. }
  rewrite q1, q2 in C. destruct C as [C|[C1 C2]]; [right; exact C|left].
  assert (NF := near_foot (3 * val b64_eps / 2) n ltac:(rewrite eps_u; lra) (dseg s) (dval p)). cbn [end1 end2 dseg] in NF. fold (dseg s) in NF. rewrite <- !rco_fun in NF. fold x y in NF. fold I in NF.
  change (norm2 n x) with m1 in NF. change (norm2 n y) with m2 in NF. destruct (NF C1) as (z & Z1 & Z2).
  - pose proof (bpow_gt_0 radix2 (-400)). lra.
  - lra.
  - exists z. split; [exact Z1|]. lra.
Qed.
End Away.
End Final.
