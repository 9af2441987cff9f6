(** Coordinates of points in doubles: the rounding errors of the conversions between frames. *)
From Coq Require Import ZArith NArith Reals Bool SpecFloat Lia Lra List Psatz.
From Flocq Require Import Core IEEE754.BinarySingleNaN.
From Verif Require Import Base Scalar OrdLib RLib B64Lib B64Ops FloatOps RSpec ConstModel VecModel RotModel VecSpec ConstSpec RotSpec RoundSpec RotRoundSpec QuatRoundSpec MatLib
  RoundLib RoundProofs RoundProofs2 RoundProofs3 RoundProofs4 RoundProofs5 QuatRound RotRound.
Import ListNotations.
Open Scope R_scope.

Lemma zero_doubles m n : doubles n (vec_zero (H := B64 m) n) /\ forall i, rco (vec_zero (H := B64 m) n) i = 0.
Proof.
  unfold vec_zero, doubles, dims, rco. cbn [el]. split; [split|].
  - apply tab_length.
  - apply Forall_forall. intros x Hx. unfold tab in Hx. apply in_map_iff in Hx. destruct Hx as (k & <- & _). vm_compute. auto.
  - intros i. destruct (Nat.lt_ge_cases i n) as [L|L]; [rewrite nth_tab by auto; reflexivity|].
    rewrite nth_overflow by (rewrite tab_length; exact L). reflexivity.
Qed.
Lemma co_exact n (x : coords spec_float) i : doubles n x -> (i < n)%nat -> nearest (rco x i) = rco x i.
Proof. intros D Hi. apply (rnd_idem (nth i (el x) (S754_zero false))). eapply co_fl; eauto. Qed.
Lemma co_fmt n (x : coords spec_float) i : doubles n x -> (i < n)%nat -> generic_format radix2 (FLT_exp (-1074) 53) (rco x i).
Proof. intros D Hi. apply fl_format. eapply co_fl; eauto. Qed.
Lemma tri n a b : norm n a <= norm n b + norm n (fun i => a i - b i).
Proof. pose proof (norm_triangle n b (fun i => a i - b i)) as T. cbv beta in T. rewrite (norm_ext n (fun i => b i + (a i - b i)) a) in T by (intros; ring). exact T. Qed.

Section Frame.
Variable m : libm.
Variable n : nat.
Hypothesis N0 : (0 < n)%nat.
Hypothesis N1 : (Z.of_nat n <= 2 ^ 20)%Z.
Variable A : (nat -> R) -> nat -> R.
Variable fa : vector spec_float -> vector spec_float.
Variables k t : R.
Hypothesis K0 : 0 <= k <= / 10.
Hypothesis T0 : 0 <= t <= 1.
Hypothesis Alip : forall v w i, (i < n)%nat -> Rabs (A v i - A w i) <= norm n (fun j => v j - w j).
Hypothesis Alen : forall v i, (i < n)%nat -> Rabs (A v i) <= norm n v.
Hypothesis Fa : forall v, doubles n v -> norm n (rco v) <= bpow radix2 1000 ->
  doubles n (fa v) /\ forall i, (i < n)%nat -> Rabs (rco (fa v) i - A (rco v) i) <= k * norm n (rco v) + t.

Lemma u_small : 0 < u64 <= / 1000000000000000.
Proof. split; [apply u64_pos|]. unfold u64, bpow. change (Z.pow_pos radix2 53) with 9007199254740992%Z. lra. Qed.
Lemma b990 : 1024 * bpow radix2 990 = bpow radix2 1000 /\ bpow radix2 1000 * 8388608 = big /\ 1 <= bpow radix2 990.
Proof.
  split; [|split].
  - change 1000%Z with (10 + 990)%Z. rewrite bpow_plus. f_equal.
  - unfold big. change 1023%Z with (1000 + 23)%Z. rewrite bpow_plus. f_equal.
  - change 1 with (bpow radix2 0). apply bpow_le. lia.
Qed.

(** the difference of two points *)
Lemma diff_ok x o : doubles n x -> doubles n o -> norm n (fun i => rco x i - rco o i) <= bpow radix2 990 ->
  let d := vec_sub (H := B64 m) n x o in
  doubles n d /\ norm n (fun i => rco d i - (rco x i - rco o i)) <= u64 * norm n (fun i => rco x i - rco o i) /\ norm n (rco d) <= (1 + u64) * norm n (fun i => rco x i - rco o i).
Proof.
  intros Dx Do B d. set (D := norm n (fun i => rco x i - rco o i)) in *. pose proof u_small as U. pose proof b990 as (B1 & B2 & B3).
  destruct (sub_round m n x o Dx Do) as [Dd Ed].
  { intros i Hi. pose proof (coord_norm n (fun i => rco x i - rco o i) i Hi) as C. cbv beta in C. fold D in C. lra. }
  fold d in Dd, Ed. split; [exact Dd|].
  assert (E : norm n (fun i => rco d i - (rco x i - rco o i)) <= u64 * D).
  { unfold D. rewrite <- (Rabs_pos_eq u64) at 1 by lra. rewrite <- norm_scal_abs.
    eapply Rle_trans; [apply (norm_mono n _ (fun i => Rabs (u64 * (rco x i - rco o i))))|].
    - intros i Hi. rewrite Ed by auto. rewrite Rabs_mult, (Rabs_pos_eq u64) by lra. apply (rnd_add_err (rco x i) (- rco o i)); [eapply co_fmt; eauto|apply generic_format_opp; eapply co_fmt; eauto].
    - apply Req_le. unfold norm. f_equal. apply Rsum_ext. intros. rewrite <- Rabs_mult. apply Rabs_pos_eq, Rle_0_sqr. }
  split; [exact E|]. pose proof (tri n (rco d) (fun i => rco x i - rco o i)) as T. cbv beta in T. fold D in T. lra.
Qed.
Lemma parent_ok x o : doubles n x -> doubles n o -> norm n (rco x) <= bpow radix2 990 -> norm n (rco o) <= bpow radix2 990 ->
  let p := vec_add (H := B64 m) n o (fa (vec_sub (H := B64 m) n x (vec_zero (H := B64 m) n))) in
  doubles n p /\ forall i, (i < n)%nat -> Rabs (rco p i - (rco o i + A (rco x) i)) <= (k + 2 * u64) * norm n (rco x) + u64 * norm n (rco o) + 2 * t.
Proof.
  intros Dx Do Bx Bo p. pose proof u_small as U. pose proof b990 as (B1 & B2 & B3). destruct (zero_doubles m n) as [Dz Ez]. set (X := norm n (rco x)) in *. set (Q := norm n (rco o)) in *.
  assert (X0 : 0 <= X) by apply norm_nonneg. assert (Q0 : 0 <= Q) by apply norm_nonneg.
  set (d := vec_sub (H := B64 m) n x (vec_zero (H := B64 m) n)) in *.
  destruct (sub_round m n x (vec_zero (H := B64 m) n) Dx Dz) as [Dd Ed].
  { intros i Hi. rewrite Ez, Rminus_0_r. pose proof (coord_norm n (rco x) i Hi) as C. fold X in C. lra. }
  fold d in Dd, Ed. assert (Ex : forall i, (i < n)%nat -> rco d i = rco x i). { intros i Hi. rewrite Ed by auto. rewrite Ez, Rminus_0_r. eapply co_exact; eauto. }
  assert (Nd : norm n (rco d) = X) by (apply norm_ext; exact Ex).
  destruct (Fa d Dd ltac:(lra)) as [Df Ef]. rewrite Nd in Ef.
  assert (Ef' : forall i, (i < n)%nat -> Rabs (rco (fa d) i - A (rco x) i) <= k * X + t).
  { intros i Hi. specialize (Ef i Hi). pose proof (Alip (rco d) (rco x) i Hi) as L. assert (Z : norm n (fun j => rco d j - rco x j) = 0).
    { rewrite (norm_ext n _ (fun _ => 0)) by (intros; rewrite Ex by auto; ring). pose proof (norm_const n 0 (Rle_refl 0)). pose proof (norm_nonneg n (fun _ => 0)). lra. }
    rewrite Z in L. pose proof (Rabs_le_inv _ _ L). pose proof (Rabs_le_inv _ _ Ef). apply Rabs_le. lra. }
  assert (KX : 0 <= k * X <= X / 10) by (split; [apply Rmult_le_pos; lra|unfold Rdiv; rewrite (Rmult_comm X); apply Rmult_le_compat_r; lra]).
  assert (S : forall i, (i < n)%nat -> Rabs (rco o i + rco (fa d) i) <= Q + X + (k * X + t)).
  { intros i Hi. pose proof (coord_norm n (rco o) i Hi) as C. fold Q in C. pose proof (Alen (rco x) i Hi) as L. fold X in L. specialize (Ef' i Hi).
    pose proof (Rabs_le_inv _ _ C). pose proof (Rabs_le_inv _ _ L). pose proof (Rabs_le_inv _ _ Ef'). apply Rabs_le. lra. }
  destruct (add_round m n o (fa d) Do Df) as [Dp Ep]. { intros i Hi. specialize (S i Hi). lra. }
  split; [exact Dp|]. intros i Hi. unfold p. rewrite Ep by auto. specialize (S i Hi). specialize (Ef' i Hi).
  pose proof (rnd_add_err (rco o i) (rco (fa d) i) ltac:(eapply co_fmt; eauto) ltac:(eapply co_fmt; eauto)) as R. change rnd with nearest in R.
  assert (R2 : u64 * Rabs (rco o i + rco (fa d) i) <= u64 * (Q + X + (k * X + t))) by (apply Rmult_le_compat_l; lra).
  assert (R3 : u64 * (k * X + t) <= u64 * (X / 10) + u64 * t) by (rewrite <- Rmult_plus_distr_l; apply Rmult_le_compat_l; lra).
  assert (R4 : u64 * t <= t) by (rewrite <- (Rmult_1_l t) at 2; apply Rmult_le_compat_r; lra).
  pose proof (Rabs_le_inv _ _ R). pose proof (Rabs_le_inv _ _ Ef'). apply Rabs_le.
  assert (u64 * (Q + X + (k * X + t)) <= u64 * Q + 2 * u64 * X + t).
  { rewrite !Rmult_plus_distr_l in *. assert (0 <= u64 * X) by (apply Rmult_le_pos; lra). lra. }
  lra.
Qed.
Lemma local_ok x o : doubles n x -> doubles n o -> norm n (fun i => rco x i - rco o i) <= bpow radix2 990 ->
  let l := vec_add (H := B64 m) n (vec_zero (H := B64 m) n) (fa (vec_sub (H := B64 m) n x o)) in
  doubles n l /\ forall i, (i < n)%nat -> Rabs (rco l i - A (fun j => rco x j - rco o j) i) <= (k + 2 * u64) * norm n (fun i => rco x i - rco o i) + 2 * t.
Proof.
  intros Dx Do B l. pose proof u_small as U. pose proof b990 as (B1 & B2 & B3). destruct (zero_doubles m n) as [Dz Ez].
  destruct (diff_ok x o Dx Do B) as (Dd & Ed & Nd). set (d := vec_sub (H := B64 m) n x o) in *. set (D := norm n (fun i => rco x i - rco o i)) in *.
  assert (D0 : 0 <= D) by apply norm_nonneg. assert (UD : 0 <= u64 * D <= D / 10) by (split; [apply Rmult_le_pos; lra|unfold Rdiv; rewrite (Rmult_comm D); apply Rmult_le_compat_r; lra]).
  destruct (Fa d Dd ltac:(lra)) as [Df Ef].
  assert (KD : k * norm n (rco d) <= k * D + u64 * D / 10).
  { eapply Rle_trans; [apply Rmult_le_compat_l; [lra|exact Nd]|]. assert (k * (u64 * D) <= / 10 * (u64 * D)) by (apply Rmult_le_compat_r; lra). lra. }
  assert (KD' : k * D <= D) by (rewrite <- (Rmult_1_l D) at 2; apply Rmult_le_compat_r; lra).
  assert (G : forall i, (i < n)%nat -> Rabs (rco (fa d) i - A (fun j => rco x j - rco o j) i) <= (k + 2 * u64) * D + t).
  { intros i Hi. specialize (Ef i Hi). pose proof (Alip (rco d) (fun j => rco x j - rco o j) i Hi) as L. cbv beta in L. pose proof (Rle_trans _ _ _ L Ed) as L'.
    pose proof (Rabs_le_inv _ _ L'). pose proof (Rabs_le_inv _ _ Ef). apply Rabs_le. lra. }
  assert (Z : forall i, rco (vec_zero (H := B64 m) n) i + rco (fa d) i = rco (fa d) i) by (intros; rewrite Ez; ring).
  destruct (add_round m n (vec_zero (H := B64 m) n) (fa d) Dz Df) as [Dl El].
  { intros i Hi. rewrite Z. specialize (G i Hi). pose proof (Alen (fun j => rco x j - rco o j) i Hi) as L. cbv beta in L. fold D in L. pose proof (Rabs_le_inv _ _ G). pose proof (Rabs_le_inv _ _ L). apply Rabs_le. lra. }
  split; [exact Dl|]. intros i Hi. unfold l. rewrite El by auto. rewrite Z. rewrite (co_exact n) by auto. specialize (G i Hi). lra.
Qed.
(** turning about a point *)
Lemma about_ok x o : doubles n x -> doubles n o -> norm n (fun i => rco x i - rco o i) <= bpow radix2 990 -> norm n (rco o) <= bpow radix2 990 ->
  let p := vec_add (H := B64 m) n o (fa (vec_sub (H := B64 m) n x o)) in
  doubles n p /\ forall i, (i < n)%nat -> Rabs (rco p i - (rco o i + A (fun j => rco x j - rco o j) i)) <= (k + 4 * u64) * norm n (fun i => rco x i - rco o i) + u64 * norm n (rco o) + 2 * t.
Proof.
  intros Dx Do B Bo p. pose proof u_small as U. pose proof b990 as (B1 & B2 & B3).
  destruct (diff_ok x o Dx Do B) as (Dd & Ed & Nd). set (d := vec_sub (H := B64 m) n x o) in *. set (D := norm n (fun i => rco x i - rco o i)) in *. set (Q := norm n (rco o)) in *.
  assert (Q0 : 0 <= Q) by apply norm_nonneg.
  assert (D0 : 0 <= D) by apply norm_nonneg. assert (UD : 0 <= u64 * D <= D / 10) by (split; [apply Rmult_le_pos; lra|unfold Rdiv; rewrite (Rmult_comm D); apply Rmult_le_compat_r; lra]).
  destruct (Fa d Dd ltac:(lra)) as [Df Ef].
  assert (KD : k * norm n (rco d) <= k * D + u64 * D / 10).
  { eapply Rle_trans; [apply Rmult_le_compat_l; [lra|exact Nd]|]. assert (k * (u64 * D) <= / 10 * (u64 * D)) by (apply Rmult_le_compat_r; lra). lra. }
  assert (KD' : 0 <= k * D <= D / 10) by (split; [apply Rmult_le_pos; lra|unfold Rdiv; rewrite (Rmult_comm D); apply Rmult_le_compat_r; lra]).
  assert (G : forall i, (i < n)%nat -> Rabs (rco (fa d) i - A (fun j => rco x j - rco o j) i) <= k * D + 11 / 10 * (u64 * D) + t).
  { intros i Hi. specialize (Ef i Hi). pose proof (Alip (rco d) (fun j => rco x j - rco o j) i Hi) as L. cbv beta in L. pose proof (Rle_trans _ _ _ L Ed) as L'.
    pose proof (Rabs_le_inv _ _ L'). pose proof (Rabs_le_inv _ _ Ef). apply Rabs_le. lra. }
  assert (S : forall i, (i < n)%nat -> Rabs (rco o i + rco (fa d) i) <= Q + 2 * D + t).
  { intros i Hi. pose proof (coord_norm n (rco o) i Hi) as C. fold Q in C. pose proof (Alen (fun j => rco x j - rco o j) i Hi) as L. fold D in L. specialize (G i Hi).
    pose proof (Rabs_le_inv _ _ C). pose proof (Rabs_le_inv _ _ L). pose proof (Rabs_le_inv _ _ G). apply Rabs_le. lra. }
  destruct (add_round m n o (fa d) Do Df) as [Dp Ep]. { intros i Hi. specialize (S i Hi). lra. }
  split; [exact Dp|]. intros i Hi. unfold p. rewrite Ep by auto. specialize (S i Hi). specialize (G i Hi).
  pose proof (rnd_add_err (rco o i) (rco (fa d) i) ltac:(eapply co_fmt; eauto) ltac:(eapply co_fmt; eauto)) as R. change rnd with nearest in R.
  assert (R2 : u64 * Rabs (rco o i + rco (fa d) i) <= u64 * (Q + 2 * D + t)) by (apply Rmult_le_compat_l; lra).
  assert (R4 : u64 * t <= t) by (rewrite <- (Rmult_1_l t) at 2; apply Rmult_le_compat_r; lra).
  pose proof (Rabs_le_inv _ _ R). pose proof (Rabs_le_inv _ _ G). apply Rabs_le.
  assert (u64 * (Q + 2 * D + t) <= u64 * Q + 2 * (u64 * D) + t) by (rewrite !Rmult_plus_distr_l; lra).
  lra.
Qed.
End Frame.

Section Round.
Variable m : libm.
Variable n : nat.
Hypothesis N0 : (0 < n)%nat.
Hypothesis N1 : (Z.of_nat n <= 2 ^ 20)%Z.
Variables A B : (nat -> R) -> nat -> R.
Variables fa fb : vector spec_float -> vector spec_float.
Variables k t : R.
Hypothesis K0 : 0 <= k <= / 10.
Hypothesis T0 : 0 <= t <= 1.
Hypothesis Alip : forall v w i, (i < n)%nat -> Rabs (A v i - A w i) <= norm n (fun j => v j - w j).
Hypothesis Anorm : forall v, norm n (A v) = norm n v.
Hypothesis Blip : forall v w i, (i < n)%nat -> Rabs (B v i - B w i) <= norm n (fun j => v j - w j).
Hypothesis Bnorm : forall v, norm n (B v) = norm n v.
Hypothesis AB : forall v i, (i < n)%nat -> A (B v) i = v i.
Hypothesis BA : forall v i, (i < n)%nat -> B (A v) i = v i.
Hypothesis Fa : forall v, doubles n v -> norm n (rco v) <= bpow radix2 1000 ->
  doubles n (fa v) /\ forall i, (i < n)%nat -> Rabs (rco (fa v) i - A (rco v) i) <= k * norm n (rco v) + t.
Hypothesis Fb : forall v, doubles n v -> norm n (rco v) <= bpow radix2 1000 ->
  doubles n (fb v) /\ forall i, (i < n)%nat -> Rabs (rco (fb v) i - B (rco v) i) <= k * norm n (rco v) + t.
Let P x o := vec_add (H := B64 m) n o (fa (vec_sub (H := B64 m) n x (vec_zero (H := B64 m) n))).
Let L x o := vec_add (H := B64 m) n (vec_zero (H := B64 m) n) (fb (vec_sub (H := B64 m) n x o)).

Lemma alen v i : (i < n)%nat -> Rabs (A v i) <= norm n v.
Proof. intros Hi. rewrite <- (Anorm v). now apply coord_norm. Qed.
Lemma blen v i : (i < n)%nat -> Rabs (B v i) <= norm n v.
Proof. intros Hi. rewrite <- (Bnorm v). now apply coord_norm. Qed.
Lemma b960 : 1073741824 * bpow radix2 960 = bpow radix2 990 /\ 1 <= bpow radix2 960.
Proof. split; [change 990%Z with (30 + 960)%Z; rewrite bpow_plus; f_equal|change 1 with (bpow radix2 0); apply bpow_le; lia]. Qed.

Lemma there_and_back x o : doubles n x -> doubles n o -> norm n (rco x) <= bpow radix2 960 -> norm n (rco o) <= bpow radix2 960 ->
  doubles n (L (P x o) o) /\ forall i, (i < n)%nat ->
    Rabs (rco (L (P x o) o) i - rco x i) <= 3 * INR n * ((k + 2 * u64) * norm n (rco x) + u64 * norm n (rco o) + 2 * t).
Proof.
  intros Dx Do Bx Bo. pose proof u_small as U. pose proof b960 as (C1 & C2). pose proof (dim_bound n N0 N1) as N.
  destruct (parent_ok m n N0 A fa k t K0 T0 Alip alen Fa x o Dx Do ltac:(lra) ltac:(lra)) as [Dp Ep]. fold (P x o) in Dp, Ep. set (X := norm n (rco x)) in *. set (Q := norm n (rco o)) in *.
  assert (X0 : 0 <= X) by apply norm_nonneg. assert (Q0 : 0 <= Q) by apply norm_nonneg.
  set (K := k + 2 * u64) in *. assert (KK : 0 <= K <= / 5) by (unfold K; lra). set (E := K * X + u64 * Q + 2 * t) in *.
  assert (KX : 0 <= K * X <= X / 5) by (split; [apply Rmult_le_pos; lra|unfold Rdiv; rewrite (Rmult_comm X); apply Rmult_le_compat_r; lra]).
  assert (UQ : 0 <= u64 * Q <= Q / 10) by (split; [apply Rmult_le_pos; lra|unfold Rdiv; rewrite (Rmult_comm Q); apply Rmult_le_compat_r; lra]).
  assert (E0 : 0 <= E) by (unfold E; lra). assert (E1 : E <= 3 * bpow radix2 960) by (unfold E; lra).
  assert (NE0 : 0 <= INR n * E) by (apply Rmult_le_pos; lra). assert (NE : INR n * E <= 1048576 * (3 * bpow radix2 960)) by (apply Rmult_le_compat; lra).
  assert (NN : E <= INR n * E) by (rewrite <- (Rmult_1_l E) at 1; apply Rmult_le_compat_r; lra).
  assert (Ed : norm n (fun i => rco (P x o) i - rco o i - A (rco x) i) <= INR n * E).
  { eapply Rle_trans; [apply (norm_mono n _ (fun _ => E))|now apply norm_const]. intros i Hi. specialize (Ep i Hi). replace (rco (P x o) i - rco o i - A (rco x) i) with (rco (P x o) i - (rco o i + A (rco x) i)) by ring. exact Ep. }
  assert (ND : norm n (fun i => rco (P x o) i - rco o i) <= X + INR n * E).
  { eapply Rle_trans; [apply (tri n _ (A (rco x)))|]. rewrite Anorm. fold X. cbv beta. lra. }
  set (D := norm n (fun i => rco (P x o) i - rco o i)) in *. assert (D0 : 0 <= D) by apply norm_nonneg.
  destruct (local_ok m n N0 B fb k t K0 T0 Blip blen Fb (P x o) o Dp Do) as [Dl El]. { fold D. lra. }
  fold (L (P x o) o) in Dl, El. fold D K in El. split; [exact Dl|]. intros i Hi. specialize (El i Hi). cbv beta in El.
  pose proof (Blip (fun j => rco (P x o) j - rco o j) (A (rco x)) i Hi) as Lp. cbv beta in Lp. rewrite BA in Lp by auto. pose proof (Rle_trans _ _ _ Lp Ed) as Lp'.
  assert (KD : K * D <= K * X + INR n * E / 5).
  { apply Rle_trans with (K * (X + INR n * E)); [apply Rmult_le_compat_l; lra|]. rewrite Rmult_plus_distr_l. assert (K * (INR n * E) <= / 5 * (INR n * E)) by (apply Rmult_le_compat_r; lra). lra. }
  pose proof (Rabs_le_inv _ _ El). pose proof (Rabs_le_inv _ _ Lp'). apply Rabs_le. unfold E in NN at 1. rewrite Rmult_assoc. lra.
Qed.
Lemma back_and_there x o : doubles n x -> doubles n o -> norm n (fun i => rco x i - rco o i) <= bpow radix2 960 -> norm n (rco o) <= bpow radix2 960 ->
  doubles n (P (L x o) o) /\ forall i, (i < n)%nat ->
    Rabs (rco (P (L x o) o) i - rco x i) <= 3 * INR n * ((k + 2 * u64) * norm n (fun i => rco x i - rco o i) + 2 * t) + u64 * norm n (rco o).
Proof.
  intros Dx Do Bx Bo. pose proof u_small as U. pose proof b960 as (C1 & C2). pose proof (dim_bound n N0 N1) as N.
  destruct (local_ok m n N0 B fb k t K0 T0 Blip blen Fb x o Dx Do ltac:(lra)) as [Dl El]. fold (L x o) in Dl, El. set (D := norm n (fun i => rco x i - rco o i)) in *. set (Q := norm n (rco o)) in *.
  assert (D0 : 0 <= D) by apply norm_nonneg. assert (Q0 : 0 <= Q) by apply norm_nonneg.
  set (K := k + 2 * u64) in *. assert (KK : 0 <= K <= / 5) by (unfold K; lra). set (E := K * D + 2 * t) in *.
  assert (KD : 0 <= K * D <= D / 5) by (split; [apply Rmult_le_pos; lra|unfold Rdiv; rewrite (Rmult_comm D); apply Rmult_le_compat_r; lra]).
  assert (E0 : 0 <= E) by (unfold E; lra). assert (E1 : E <= 3 * bpow radix2 960) by (unfold E; lra).
  assert (NE0 : 0 <= INR n * E) by (apply Rmult_le_pos; lra). assert (NE : INR n * E <= 1048576 * (3 * bpow radix2 960)) by (apply Rmult_le_compat; lra).
  assert (NN : E <= INR n * E) by (rewrite <- (Rmult_1_l E) at 1; apply Rmult_le_compat_r; lra).
  assert (Ed : norm n (fun i => rco (L x o) i - B (fun j => rco x j - rco o j) i) <= INR n * E).
  { eapply Rle_trans; [apply (norm_mono n _ (fun _ => E))|now apply norm_const]. intros i Hi. exact (El i Hi). }
  assert (ND : norm n (rco (L x o)) <= D + INR n * E).
  { eapply Rle_trans; [apply (tri n _ (B (fun j => rco x j - rco o j)))|]. rewrite Bnorm. fold D. cbv beta. lra. }
  destruct (parent_ok m n N0 A fa k t K0 T0 Alip alen Fa (L x o) o Dl Do) as [Dp Ep]; [lra|fold Q; lra|].
  fold (P (L x o) o) in Dp, Ep. fold Q K in Ep. set (S := norm n (rco (L x o))) in *. assert (S0 : 0 <= S) by apply norm_nonneg.
  split; [exact Dp|]. intros i Hi. specialize (Ep i Hi).
  pose proof (Alip (rco (L x o)) (B (fun j => rco x j - rco o j)) i Hi) as Lp. cbv beta in Lp. rewrite AB in Lp by auto. pose proof (Rle_trans _ _ _ Lp Ed) as Lp'.
  assert (KS : K * S <= K * D + INR n * E / 5).
  { apply Rle_trans with (K * (D + INR n * E)); [apply Rmult_le_compat_l; lra|]. rewrite Rmult_plus_distr_l. assert (K * (INR n * E) <= / 5 * (INR n * E)) by (apply Rmult_le_compat_r; lra). lra. }
  pose proof (Rabs_le_inv _ _ Ep). pose proof (Rabs_le_inv _ _ Lp'). apply Rabs_le. unfold E in NN at 1. rewrite Rmult_assoc. lra.
Qed.
End Round.
