(** C36 Coordinates of points in doubles: how exact the conversions between frames and the turns about a point are, and how far a point
    that goes to another frame and back ends from where it was. *)
From Coq Require Import ZArith NArith Reals Bool SpecFloat Lia Lra List Psatz.
From Flocq Require Import Core IEEE754.BinarySingleNaN.
From Verif Require Import Base Scalar OrdLib RLib B64Lib B64Ops FloatOps RSpec ConstModel VecModel RotModel QuatModel VecSpec ConstSpec RotSpec QuatSpec RoundSpec RotRoundSpec QuatRoundSpec MatLib
  RoundLib RoundProofs RoundProofs2 RoundProofs3 RoundProofs4 RoundProofs5 QuatProofs QuatProofs3 QuatRound QuatRound2 QuatRound3 QuatRound4 RotRound CoordRound PropRound PropQuatDouble PropQuatDouble2 PropRotDouble.
Import ListNotations.
Open Scope R_scope.

Lemma abs_m1 : Rabs (-1) = 1.
Proof. rewrite Rabs_left; lra. Qed.

Section Matrix.
Variable m : libm.
Variable n : nat.
Variable M : rotmatrix spec_float.
Variable O : nat -> nat -> R.
Variable e : R.
Hypothesis N0 : (0 < n)%nat.
Hypothesis N1 : (Z.of_nat n <= 2 ^ 20)%Z.
Hypothesis MO : near m n M O e.
Hypothesis E0 : INR n * e <= / 20.

Definition A_ (v : nat -> R) (i : nat) : R := Rsum n (fun j => v j * O j i).
Definition B_ (v : nat -> R) (i : nat) : R := Rsum n (fun j => O i j * v j).
Lemma A_norm v : norm n (A_ v) = norm n v.
Proof. destruct MO as (_ & OO & _). exact (vmul_orth n v O OO). Qed.
Lemma B_norm v : norm n (B_ v) = norm n v.
Proof.
  destruct MO as (_ & OO & _). rewrite <- (vmul_orth n v (mtr O)) by (now apply orthogonal_tr). apply norm_ext. intros i Hi. unfold B_, vmul, mtr. apply Rsum_ext. intros. ring.
Qed.
Lemma A_lip v w i : (i < n)%nat -> Rabs (A_ v i - A_ w i) <= norm n (fun j => v j - w j).
Proof.
  intros Hi. rewrite <- (A_norm (fun j => v j - w j)). replace (A_ v i - A_ w i) with (A_ (fun j => v j - w j) i); [now apply coord_norm|].
  unfold A_. rewrite <- Rsum_minus. apply Rsum_ext. intros. ring.
Qed.
Lemma B_lip v w i : (i < n)%nat -> Rabs (B_ v i - B_ w i) <= norm n (fun j => v j - w j).
Proof.
  intros Hi. rewrite <- (B_norm (fun j => v j - w j)). replace (B_ v i - B_ w i) with (B_ (fun j => v j - w j) i); [now apply coord_norm|].
  unfold B_. rewrite <- Rsum_minus. apply Rsum_ext. intros. ring.
Qed.
Lemma AB_ v i : (i < n)%nat -> A_ (B_ v) i = v i.
Proof.
  destruct MO as (_ & OO & _). intros Hi. unfold A_, B_. rewrite (Rsum_ext n _ (fun j => Rsum n (fun k => v k * O j k * O j i))).
  2: { intros j Hj. rewrite <- Rsum_scal_r. apply Rsum_ext. intros. ring. }
  rewrite Rsum_swap. rewrite (Rsum_ext n _ (fun k => v k * delta k i)).
  2: { intros k Hk. rewrite (Rsum_ext n _ (fun j => v k * (O j k * O j i))) by (intros; ring). rewrite Rsum_scal_l. f_equal.
       pose proof (orthogonal_cols n O OO k i Hk Hi) as C. unfold mmul, mtr in C. exact C. }
  now rewrite (Rsum_delta_r n _ i Hi).
Qed.
Lemma BA_ v i : (i < n)%nat -> B_ (A_ v) i = v i.
Proof.
  destruct MO as (_ & OO & _). intros Hi. unfold A_, B_. rewrite (Rsum_ext n _ (fun j => Rsum n (fun k => v k * (O k j * O i j)))).
  2: { intros j Hj. rewrite <- Rsum_scal_l. apply Rsum_ext. intros. ring. }
  rewrite Rsum_swap. rewrite (Rsum_ext n _ (fun k => v k * delta k i)).
  2: { intros k Hk. rewrite Rsum_scal_l. f_equal. pose proof (OO k i Hk Hi) as C. unfold mmul, mtr in C. exact C. }
  now rewrite (Rsum_delta_r n _ i Hi).
Qed.
Lemma e_pos : 0 <= e.
Proof. destruct MO as (_ & _ & C). eapply Rle_trans; [apply Rabs_pos|apply (C 0%nat 0%nat); auto]. Qed.
Lemma sum_le f g : Rabs (Rsum n (fun j => f j * g j)) <= norm n f * norm n g.
Proof. pose proof (inner_le_norm n f g). pose proof (inner_le_norm n (fun j => - f j) g) as I. rewrite (norm_ext n (fun j => - f j) (fun j => (-1) * f j)) in I by (intros; ring). rewrite norm_scal_abs in I.
  rewrite abs_m1 in I. unfold inner in *. rewrite (Rsum_ext n (fun i => - f i * g i) (fun i => (-1) * (f i * g i))) in I by (intros; ring). rewrite Rsum_scal_l in I. apply Rabs_le. lra. Qed.
(** one row or column *)
Lemma line_ok (a b : nat -> R) (v : nat -> R) w : norm n b = 1 -> (forall j, (j < n)%nat -> Rabs (a j - b j) <= e) ->
  Rabs (w - Rsum n (fun j => a j * v j)) <= (INR n + 2) * u64 * (norm n a * norm n v) + 2 * INR n * eta64 ->
  Rabs (w - Rsum n (fun j => b j * v j)) <= ((2 * INR n + 2) * u64 + INR n * e) * norm n v + 2 * INR n * eta64.
Proof.
  intros Nb Cb W. pose proof (dim_bound n N0 N1) as N. pose proof u_small as U. pose proof e_pos as E. set (V := norm n v) in *. assert (V0 : 0 <= V) by apply norm_nonneg.
  assert (Nd : norm n (fun j => a j - b j) <= INR n * e) by (eapply Rle_trans; [apply (norm_mono n _ (fun _ => e)); auto|now apply norm_const]).
  assert (Na : norm n a <= 21 / 20) by (eapply Rle_trans; [apply (tri n a b)|]; rewrite Nb; lra).
  pose proof (sum_le (fun j => a j - b j) v) as S. fold V in S. rewrite (Rsum_ext n _ (fun j => a j * v j - b j * v j)) in S by (intros; ring). rewrite Rsum_minus in S.
  assert (S2 : norm n (fun j => a j - b j) * V <= INR n * e * V) by (apply Rmult_le_compat_r; auto).
  assert (W2 : (INR n + 2) * u64 * (norm n a * V) <= (2 * INR n + 2) * u64 * V).
  { rewrite <- Rmult_assoc. apply Rmult_le_compat_r; auto. apply Rle_trans with ((INR n + 2) * u64 * (21 / 20)); [apply Rmult_le_compat_l; [apply Rmult_le_pos; lra|exact Na]|].
    replace ((INR n + 2) * u64 * (21 / 20)) with ((INR n + 2) * (21 / 20) * u64) by ring. apply Rmult_le_compat_r; lra. }
  pose proof (Rabs_le_inv _ _ W). pose proof (Rabs_le_inv _ _ S). apply Rabs_le. rewrite Rmult_plus_distr_r. lra.
Qed.
Lemma row_b i : (i < n)%nat -> norm n (O i) = 1 /\ norm n (fun j => O j i) = 1.
Proof. destruct MO as (_ & OO & _). intros Hi. split; [now apply row_norm|apply (row_norm n (mtr O) i); auto; now apply orthogonal_tr]. Qed.
Lemma mass_b (a b : nat -> R) V : norm n b = 1 -> (forall j, (j < n)%nat -> Rabs (a j - b j) <= e) -> 0 <= V <= bpow radix2 1000 -> norm n a * V <= bpow radix2 1022.
Proof.
  intros Nb Cb HV. assert (Nd : norm n (fun j => a j - b j) <= INR n * e) by (eapply Rle_trans; [apply (norm_mono n _ (fun _ => e)); auto|apply norm_const, e_pos]).
  assert (Na : norm n a <= 21 / 20) by (eapply Rle_trans; [apply (tri n a b)|]; rewrite Nb; lra). pose proof (norm_nonneg n a).
  change 1022%Z with (22 + 1000)%Z. rewrite bpow_plus. apply Rmult_le_compat; try lra. unfold bpow at 1. change (Z.pow_pos radix2 22) with 4194304%Z. lra.
Qed.
Lemma FA v : doubles n v -> norm n (rco v) <= bpow radix2 1000 ->
  doubles n (prod_vm (H := B64 m) n v M) /\ forall i, (i < n)%nat -> Rabs (rco (prod_vm (H := B64 m) n v M) i - A_ (rco v) i) <= ((2 * INR n + 2) * u64 + INR n * e) * norm n (rco v) + 2 * INR n * eta64.
Proof.
  intros Dv Bv. pose proof MO as (DM & OO & C). destruct (C68_rotate m n M v) as [R _]; auto; [lia|]. destruct R as [Dw Ew].
  { intros i Hi. apply (mass_b (fun j => mco m M j i) (fun j => O j i)); [apply row_b; auto|intros; apply C; auto|split; [apply norm_nonneg|exact Bv]]. }
  split; [exact Dw|]. intros i Hi. unfold A_. rewrite (Rsum_ext n _ (fun j => O j i * rco v j)) by (intros; ring). apply (line_ok (fun j => mco m M j i)); [apply row_b; auto|intros; apply C; auto|exact (Ew i Hi)].
Qed.
Lemma FB v : doubles n v -> norm n (rco v) <= bpow radix2 1000 ->
  doubles n (prod_mv (H := B64 m) n M v) /\ forall i, (i < n)%nat -> Rabs (rco (prod_mv (H := B64 m) n M v) i - B_ (rco v) i) <= ((2 * INR n + 2) * u64 + INR n * e) * norm n (rco v) + 2 * INR n * eta64.
Proof.
  intros Dv Bv. pose proof MO as (DM & OO & C). destruct (C68_rotate m n M v) as [_ R]; auto; [lia|]. destruct R as [Dw Ew].
  { intros i Hi. apply (mass_b (mco m M i) (O i)); [apply row_b; auto|intros; apply C; auto|split; [apply norm_nonneg|exact Bv]]. }
  split; [exact Dw|]. intros i Hi. unfold B_. apply (line_ok (mco m M i)); [apply row_b; auto|intros; apply C; auto|exact (Ew i Hi)].
Qed.
Lemma k_small : 0 <= (2 * INR n + 2) * u64 + INR n * e <= / 10.
Proof.
  pose proof (dim_bound n N0 N1) as N. pose proof u_small as U. pose proof e_pos as E. split.
  - assert (0 <= (2 * INR n + 2) * u64) by (apply Rmult_le_pos; lra). assert (0 <= INR n * e) by (apply Rmult_le_pos; lra). lra.
  - assert ((2 * INR n + 2) * u64 <= (2 * 1048576 + 2) * / 1000000000000000) by (apply Rmult_le_compat; lra). lra.
Qed.
Lemma t_small : 0 <= 2 * INR n * eta64 <= 1.
Proof.
  pose proof (dim_bound n N0 N1) as N. assert (E : 0 < eta64 <= / 1073741824).
  { unfold eta64. split; [apply bpow_gt_0|]. apply Rle_trans with (bpow radix2 (-30)); [apply bpow_le; lia|]. unfold bpow. change (Z.pow_pos radix2 30) with 1073741824%Z. lra. }
  split; [apply Rmult_le_pos; lra|]. apply Rle_trans with (2 * 1048576 * / 1073741824); [apply Rmult_le_compat; lra|lra].
Qed.
End Matrix.

(** One conversion, with a matrix that is within e of a rotation O in every element. *)
Theorem C36_point_matrix_double : forall m n M O e x o, (0 < n)%nat -> (Z.of_nat n <= 2 ^ 20)%Z -> near m n M O e -> INR n * e <= / 20 -> doubles n x -> doubles n o ->
  norm n (rco x) <= bpow radix2 980 -> norm n (rco o) <= bpow radix2 980 ->
  let p := point_to_parent (H := B64 m) n x o M in let l := point_to_local (H := B64 m) n x o M in let r := point_rotate (H := B64 m) n x M o in
  let D := norm n (fun i => rco x i - rco o i) in
  (doubles n p /\ forall i, (i < n)%nat -> Rabs (rco p i - to_parent n O (rco o) (rco x) i) <=
     ((2 * INR n + 4) * half_ulp + INR n * e) * norm n (rco x) + half_ulp * norm n (rco o) + 4 * INR n * half_tiny) /\
  (doubles n l /\ forall i, (i < n)%nat -> Rabs (rco l i - to_local n O (rco o) (rco x) i) <= ((2 * INR n + 4) * half_ulp + INR n * e) * D + 4 * INR n * half_tiny) /\
  (doubles n r /\ forall i, (i < n)%nat -> Rabs (rco r i - turn_about n O (rco o) (rco x) i) <=
     ((2 * INR n + 6) * half_ulp + INR n * e) * D + half_ulp * norm n (rco o) + 4 * INR n * half_tiny).
Proof.
  intros m n M O e x o N0 N1 MO E0 Dx Do Bx Bo p l r D. change half_ulp with u64. change half_tiny with eta64.
  assert (B9 : 2 * bpow radix2 980 <= bpow radix2 990) by (change 990%Z with (10 + 980)%Z; rewrite bpow_plus; pose proof (bpow_gt_0 radix2 980); unfold bpow at 2; change (Z.pow_pos radix2 10) with 1024%Z; nra).
  pose proof (bpow_gt_0 radix2 980) as B0.
  assert (BD : D <= bpow radix2 990).
  { unfold D. eapply Rle_trans; [apply (tri n _ (rco x))|]. cbv beta. rewrite (norm_ext n (fun i => rco x i - rco o i - rco x i) (fun i => (-1) * rco o i)) by (intros; ring). rewrite norm_scal_abs, abs_m1. lra. }
  pose proof (k_small m n M O e N0 N1 MO E0) as K. pose proof (t_small n N0 N1) as T. pose proof (A_norm m n M O e MO) as AN. pose proof (B_norm m n M O e MO) as BN.
  assert (AL : forall v i, (i < n)%nat -> Rabs (A_ n O v i) <= norm n v) by (intros v i Hi; rewrite <- AN; now apply coord_norm).
  assert (BL : forall v i, (i < n)%nat -> Rabs (B_ n O v i) <= norm n v) by (intros v i Hi; rewrite <- BN; now apply coord_norm).
  split; [|split].
  - destruct (parent_ok m n N0 (A_ n O) (fun v => prod_vm (H := B64 m) n v M) _ _ K T (A_lip m n M O e MO) AL (FA m n M O e N0 N1 MO E0) x o Dx Do ltac:(lra) ltac:(lra)) as [Dp Ep].
    split; [exact Dp|]. intros i Hi. eapply Rle_trans; [exact (Ep i Hi)|]. apply Req_le. ring.
  - destruct (local_ok m n N0 (B_ n O) (prod_mv (H := B64 m) n M) _ _ K T (B_lip m n M O e MO) BL (FB m n M O e N0 N1 MO E0) x o Dx Do BD) as [Dp Ep].
    split; [exact Dp|]. intros i Hi. eapply Rle_trans; [exact (Ep i Hi)|]. apply Req_le. unfold D. ring.
  - destruct (about_ok m n N0 (A_ n O) (fun v => prod_vm (H := B64 m) n v M) _ _ K T (A_lip m n M O e MO) AL (FA m n M O e N0 N1 MO E0) x o Dx Do BD ltac:(lra)) as [Dp Ep].
    split; [exact Dp|]. intros i Hi. eapply Rle_trans; [exact (Ep i Hi)|]. apply Req_le. unfold D. ring.
Qed.
Print Assumptions C36_point_matrix_double.

(** There and back, both ways round. *)
Theorem C36_round_trip_double : forall m n M O e x o, (0 < n)%nat -> (Z.of_nat n <= 2 ^ 20)%Z -> near m n M O e -> INR n * e <= / 20 -> doubles n x -> doubles n o ->
  norm n (rco x) <= bpow radix2 950 -> norm n (rco o) <= bpow radix2 950 ->
  let k := (2 * INR n + 4) * half_ulp + INR n * e in
  let a := point_to_local (H := B64 m) n (point_to_parent (H := B64 m) n x o M) o M in let b := point_to_parent (H := B64 m) n (point_to_local (H := B64 m) n x o M) o M in
  (doubles n a /\ forall i, (i < n)%nat -> Rabs (rco a i - rco x i) <= 3 * INR n * (k * norm n (rco x) + half_ulp * norm n (rco o) + 4 * INR n * half_tiny)) /\
  (doubles n b /\ forall i, (i < n)%nat -> Rabs (rco b i - rco x i) <= 3 * INR n * (k * norm n (fun j => rco x j - rco o j) + 4 * INR n * half_tiny) + half_ulp * norm n (rco o)).
Proof.
  intros m n M O e x o N0 N1 MO E0 Dx Do Bx Bo k a b. unfold k. change half_ulp with u64. change half_tiny with eta64.
  assert (B9 : 2 * bpow radix2 950 <= bpow radix2 960) by (change 960%Z with (10 + 950)%Z; rewrite bpow_plus; pose proof (bpow_gt_0 radix2 950); unfold bpow at 2; change (Z.pow_pos radix2 10) with 1024%Z; nra).
  pose proof (bpow_gt_0 radix2 950) as B0.
  assert (BD : norm n (fun j => rco x j - rco o j) <= bpow radix2 960).
  { eapply Rle_trans; [apply (tri n _ (rco x))|]. cbv beta. rewrite (norm_ext n (fun i => rco x i - rco o i - rco x i) (fun i => (-1) * rco o i)) by (intros; ring). rewrite norm_scal_abs, abs_m1. lra. }
  pose proof (k_small m n M O e N0 N1 MO E0) as K. pose proof (t_small n N0 N1) as T. pose proof (A_norm m n M O e MO) as AN. pose proof (B_norm m n M O e MO) as BN.
  split.
  - destruct (there_and_back m n N0 N1 (A_ n O) (B_ n O) (fun v => prod_vm (H := B64 m) n v M) (prod_mv (H := B64 m) n M) _ _ K T (A_lip m n M O e MO) AN (B_lip m n M O e MO) BN (BA_ m n M O e MO)
      (FA m n M O e N0 N1 MO E0) (FB m n M O e N0 N1 MO E0) x o Dx Do ltac:(lra) ltac:(lra)) as [Da Ea].
    split; [exact Da|]. intros i Hi. eapply Rle_trans; [exact (Ea i Hi)|]. apply Req_le. ring.
  - destruct (back_and_there m n N0 N1 (A_ n O) (B_ n O) (fun v => prod_vm (H := B64 m) n v M) (prod_mv (H := B64 m) n M) _ _ K T (A_lip m n M O e MO) AN (B_lip m n M O e MO) BN (AB_ m n M O e MO)
      (FA m n M O e N0 N1 MO E0) (FB m n M O e N0 N1 MO E0) x o Dx Do BD ltac:(lra)) as [Db Eb].
    split; [exact Db|]. intros i Hi. eapply Rle_trans; [exact (Eb i Hi)|]. apply Req_le. ring.
Qed.
Print Assumptions C36_round_trip_double.

(** ** Frames given by a quaternion. *)
Section Quat.
Variable m : libm.
Variable q : quat spec_float.
Hypothesis Dq : qdoubles q.
Hypothesis Nq : Rabs (hnorm2 (rq4 q) - 1) <= / 50.
Let h := hdir (rq4 q).
Lemma q_pos : 0 < hnorm2 (rq4 q) <= 121 / 100.
Proof. pose proof (Rabs_le_inv _ _ Nq). lra. Qed.
Lemma h_one : hnorm2 h = 1.
Proof. unfold h. rewrite <- hlen_sqr. rewrite hdir_len; [ring|]. apply sqrt_lt_R0, q_pos. Qed.
Definition S_ (a : ham) (v : nat -> R) (i : nat) : R := hvec (sandwich a v) i.
Lemma S_lin a v w i : (i < 3)%nat -> S_ a v i - S_ a w i = S_ a (fun j => v j - w j) i.
Proof. intros Hi. destruct i as [|[|[|i]]]; [| | |lia]; unfold S_, hvec, sandwich, hmul, hconj, pure; cbn [h4 hw hx hy hz]; ring. Qed.
Lemma S_norm a v : hnorm2 a = 1 -> norm 3 (S_ a v) = norm 3 v.
Proof.
  intros Na. pose proof (sandwich_len a v) as L. rewrite Na, Rmult_1_l in L. rewrite <- L. unfold hlen, norm. f_equal. unfold norm2, inner, S_, hvec. cbn [Rsum h4]. unfold hnorm2.
  assert (Z : hw (sandwich a v) = 0) by (unfold sandwich, hmul, hconj, pure; cbn [hw hx hy hz]; ring). rewrite Z. ring.
Qed.
Lemma S_lip a v w i : hnorm2 a = 1 -> (i < 3)%nat -> Rabs (S_ a v i - S_ a w i) <= norm 3 (fun j => v j - w j).
Proof. intros Na Hi. rewrite S_lin by auto. rewrite <- (S_norm a (fun j => v j - w j) Na). now apply coord_norm. Qed.
Lemma S_inv a v i : hnorm2 a = 1 -> (i < 3)%nat -> S_ (hconj a) (S_ a v) i = v i /\ S_ a (S_ (hconj a) v) i = v i.
Proof.
  intros Na Hi. destruct (hmul_conj a Na) as [H1 H2].
  assert (P : forall c, pure (S_ c v) = sandwich c v).
  { intros c. unfold S_, hvec. cbn [h4]. destruct (sandwich c v) as [w x y z] eqn:E. cbn [hx hy hz]. unfold pure. f_equal. assert (Z : hw (sandwich c v) = 0) by (unfold sandwich, hmul, hconj, pure; cbn [hw hx hy hz]; ring). rewrite E in Z. cbn [hw] in Z. now rewrite Z. }
  assert (I : hvec (sandwich hone v) i = v i) by (destruct i as [|[|[|i]]]; [| | |lia]; unfold hvec, sandwich, hmul, hconj, pure, hone; cbn [h4 hw hx hy hz]; ring).
  unfold S_ at 1 3. rewrite (sandwich_compose a (hconj a) v _ (P a)), (sandwich_compose (hconj a) a v _ (P (hconj a))), H1, H2. split; exact I.
Qed.
Definition kq : R := 640 * u64 + 2 * Rabs (hnorm2 (rq4 q) - 1).
Lemma Fq v : doubles 3 v -> norm 3 (rco v) <= bpow radix2 1000 ->
  doubles 3 (vec_rotate_q (H := B64 m) v q) /\ forall i, (i < 3)%nat -> Rabs (rco (vec_rotate_q (H := B64 m) v q) i - S_ h (rco v) i) <= kq * norm 3 (rco v) + 640 * eta64.
Proof.
  intros Dv Bv. destruct (C68_rotate_quaternion m q v Dq q_pos Dv Bv) as [Dr Er]. split; [exact Dr|]. intros i Hi. eapply Rle_trans; [exact (Er i Hi)|]. apply Req_le. unfold kq. change half_ulp with u64. change half_tiny with eta64. ring.
Qed.
Lemma inv_ok : qdoubles (quat_inverse (H := B64 m) q) /\ rq4 (quat_inverse (H := B64 m) q) = hconj (rq4 q).
Proof.
  destruct Dq as [Dw Dv]. destruct (C68_coordinates m 3 (qv q) (qv q) (qw q) Dv Dv Dw) as (_ & _ & _ & _ & [Dn En]). split; [split; [exact Dw|exact Dn]|].
  unfold rq4, hconj, quat_inverse. cbn [qw qv hw hx hy hz]. rewrite !En by lia. reflexivity.
Qed.
Lemma Fqi v : doubles 3 v -> norm 3 (rco v) <= bpow radix2 1000 ->
  doubles 3 (vec_rotate_q (H := B64 m) v (quat_inverse (H := B64 m) q)) /\
  forall i, (i < 3)%nat -> Rabs (rco (vec_rotate_q (H := B64 m) v (quat_inverse (H := B64 m) q)) i - S_ (hconj h) (rco v) i) <= kq * norm 3 (rco v) + 640 * eta64.
Proof.
  intros Dv Bv. destruct inv_ok as [Di Ei]. assert (Ni : hnorm2 (rq4 (quat_inverse (H := B64 m) q)) = hnorm2 (rq4 q)) by (rewrite Ei; apply hconj_norm).
  destruct (C68_rotate_quaternion m (quat_inverse (H := B64 m) q) v Di) as [Dr Er]; auto; [rewrite Ni; apply q_pos|]. split; [exact Dr|]. intros i Hi. specialize (Er i Hi). rewrite Ni, Ei, hdir_conj in Er. fold h in Er.
  eapply Rle_trans; [exact Er|]. apply Req_le. unfold kq. change half_ulp with u64. change half_tiny with eta64. ring.
Qed.
Lemma kq_small : 0 <= kq <= / 10.
Proof. unfold kq. pose proof u_small. pose proof (Rabs_pos (hnorm2 (rq4 q) - 1)). lra. Qed.
Lemma tq_small : 0 <= 640 * eta64 <= 1.
Proof.
  assert (E : 0 < eta64 <= / 1073741824).
  { unfold eta64. split; [apply bpow_gt_0|]. apply Rle_trans with (bpow radix2 (-30)); [apply bpow_le; lia|]. unfold bpow. change (Z.pow_pos radix2 30) with 1073741824%Z. lra. }
  lra.
Qed.
End Quat.

(** With a quaternion q whose squared length is within 1/50 of one, standing for the rotation by h = q / |q|. *)
Theorem C36_point_quaternion_double : forall m q x o, qdoubles q -> Rabs (hnorm2 (rq4 q) - 1) <= / 50 -> doubles 3 x -> doubles 3 o ->
  norm 3 (rco x) <= bpow radix2 950 -> norm 3 (rco o) <= bpow radix2 950 ->
  let h := hdir (rq4 q) in let k := 642 * half_ulp + 2 * Rabs (hnorm2 (rq4 q) - 1) in let X := norm 3 (rco x) in let Q := norm 3 (rco o) in let D := norm 3 (fun i => rco x i - rco o i) in
  let p := point_to_parent_q (H := B64 m) x o q in let l := point_to_local_q (H := B64 m) x o q in
  (doubles 3 p /\ forall i, (i < 3)%nat -> Rabs (rco p i - (rco o i + hvec (sandwich h (rco x)) i)) <= k * X + half_ulp * Q + 1280 * half_tiny) /\
  (doubles 3 l /\ forall i, (i < 3)%nat -> Rabs (rco l i - hvec (sandwich (hconj h) (fun j => rco x j - rco o j)) i) <= k * D + 1280 * half_tiny) /\
  (doubles 3 (point_to_local_q (H := B64 m) p o q) /\ forall i, (i < 3)%nat -> Rabs (rco (point_to_local_q (H := B64 m) p o q) i - rco x i) <= 9 * (k * X + half_ulp * Q + 1280 * half_tiny)) /\
  (doubles 3 (point_to_parent_q (H := B64 m) l o q) /\ forall i, (i < 3)%nat -> Rabs (rco (point_to_parent_q (H := B64 m) l o q) i - rco x i) <= 9 * (k * D + 1280 * half_tiny) + half_ulp * Q).
Proof.
  intros m q x o Dq Nq Dx Do Bx Bo h k X Q D p l. unfold k. change half_ulp with u64. change half_tiny with eta64.
  assert (B9 : 2 * bpow radix2 950 <= bpow radix2 960) by (change 960%Z with (10 + 950)%Z; rewrite bpow_plus; pose proof (bpow_gt_0 radix2 950); unfold bpow at 2; change (Z.pow_pos radix2 10) with 1024%Z; nra).
  pose proof (bpow_gt_0 radix2 950) as B0. assert (B99 : bpow radix2 960 <= bpow radix2 990) by (apply bpow_le; lia).
  assert (BD : D <= bpow radix2 960).
  { unfold D. eapply Rle_trans; [apply (tri 3 _ (rco x))|]. cbv beta. rewrite (norm_ext 3 (fun i => rco x i - rco o i - rco x i) (fun i => (-1) * rco o i)) by (intros; ring). rewrite norm_scal_abs, abs_m1. lra. }
  pose proof (kq_small q Nq) as K. pose proof tq_small as T. pose proof (h_one q Nq) as H1. fold h in H1. assert (H2 : hnorm2 (hconj h) = 1) by (rewrite hconj_norm; exact H1).
  assert (N0 : (0 < 3)%nat) by lia. assert (N1 : (Z.of_nat 3 <= 2 ^ 20)%Z) by (vm_compute; discriminate).
  assert (AL : forall v i, (i < 3)%nat -> Rabs (S_ h v i) <= norm 3 v) by (intros v i Hi; rewrite <- (S_norm h v H1); now apply coord_norm).
  assert (BL : forall v i, (i < 3)%nat -> Rabs (S_ (hconj h) v i) <= norm 3 v) by (intros v i Hi; rewrite <- (S_norm _ v H2); now apply coord_norm).
  assert (I3 : INR 3 = 3) by (cbn [INR]; lra).
  split; [|split; [|split]].
  - destruct (parent_ok m 3 N0 (S_ h) (fun v => vec_rotate_q (H := B64 m) v q) _ _ K T (fun v w i => S_lip h v w i H1) AL (Fq m q Dq Nq) x o Dx Do ltac:(lra) ltac:(lra)) as [Dp Ep].
    split; [exact Dp|]. intros i Hi. eapply Rle_trans; [exact (Ep i Hi)|]. apply Req_le. unfold kq, X, Q. ring.
  - destruct (local_ok m 3 N0 (S_ (hconj h)) (fun v => vec_rotate_q (H := B64 m) v (quat_inverse (H := B64 m) q)) _ _ K T (fun v w i => S_lip _ v w i H2) BL (Fqi m q Dq Nq) x o Dx Do ltac:(fold D; lra)) as [Dp Ep].
    split; [exact Dp|]. intros i Hi. eapply Rle_trans; [exact (Ep i Hi)|]. apply Req_le. unfold kq, D. ring.
  - destruct (there_and_back m 3 N0 N1 (S_ h) (S_ (hconj h)) (fun v => vec_rotate_q (H := B64 m) v q) (fun v => vec_rotate_q (H := B64 m) v (quat_inverse (H := B64 m) q)) _ _ K T
      (fun v w i => S_lip h v w i H1) (fun v => S_norm h v H1) (fun v w i => S_lip _ v w i H2) (fun v => S_norm _ v H2) (fun v i Hi => proj1 (S_inv h v i H1 Hi)) (Fq m q Dq Nq) (Fqi m q Dq Nq) x o Dx Do ltac:(lra) ltac:(lra)) as [Da Ea].
    split; [exact Da|]. intros i Hi. eapply Rle_trans; [exact (Ea i Hi)|]. apply Req_le. rewrite I3. unfold kq, X, Q. ring.
  - destruct (back_and_there m 3 N0 N1 (S_ h) (S_ (hconj h)) (fun v => vec_rotate_q (H := B64 m) v q) (fun v => vec_rotate_q (H := B64 m) v (quat_inverse (H := B64 m) q)) _ _ K T
      (fun v w i => S_lip h v w i H1) (fun v => S_norm h v H1) (fun v w i => S_lip _ v w i H2) (fun v => S_norm _ v H2) (fun v i Hi => proj2 (S_inv h v i H1 Hi)) (Fq m q Dq Nq) (Fqi m q Dq Nq) x o Dx Do BD ltac:(lra)) as [Db Eb].
    split; [exact Db|]. intros i Hi. eapply Rle_trans; [exact (Eb i Hi)|]. apply Req_le. rewrite I3. unfold kq, D, Q. ring.
Qed.
Print Assumptions C36_point_quaternion_double.

(** The hypotheses are met by a rotation about x by any angle, with the point and the origin both at (3, 4, 9), and by the quaternion made of (3, 4, 0, 0). *)
Example C36_double_example : forall theta : spec_float, exists m X O, rot_plane (H := B64 m) 3 1 2 theta = Ret X /\ near m 3 X O (4 * half_ulp) /\ INR 3 * (4 * half_ulp) <= / 20 /\
  qdoubles (q34 m) /\ Rabs (hnorm2 (rq4 (q34 m)) - 1) <= / 50 /\ doubles 3 v349 /\ norm 3 (rco v349) <= bpow radix2 950.
Proof.
  intros theta. destruct (C70_few_products_example theta) as (m & M & X & EX & (DM & _ & _ & OM & CM) & _). exists m, X, M. destruct (C65_turn_double_example m) as ((Dq & _ & _ & Nq) & _ & Dv & _).
  pose proof u_small as U. change half_ulp with u64 in *. split; [exact EX|]. split; [exact (conj DM (conj OM CM))|]. split; [cbn [INR]; lra|]. split; [exact Dq|]. split; [lra|]. split; [exact Dv|].
  pose proof length_349. apply Rle_trans with (bpow radix2 20); [unfold bpow; change (Z.pow_pos radix2 20) with 1048576%Z; lra|apply bpow_le; lia].
Qed.
