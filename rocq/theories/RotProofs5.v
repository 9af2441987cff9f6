(** normalize() cannot fail on orthogonal matrices (2D, and 3D without denormal
    elements in the first row); the determinant computed by setVals has the right sign. *)
From Coq Require Import Reals Lra Lia List Bool Psatz ZArith NArith.
From Flocq Require Import Core.Zaux Core.Raux.
From Verif Require Import Base Scalar ConstModel VecModel RotModel RSpec RLib VecSpec VecProofs RotSpec MatLib RotProofs RotProofs2 RotProofs4.
Import ListNotations.
Open Scope R_scope.

Definition MAX : R := bpow radix2 1024 - bpow radix2 971.
Definition TINY : R := bpow radix2 (-1022).
Lemma MAX_big : bpow radix2 1023 <= MAX.
Proof.
  unfold MAX. assert (bpow radix2 1024 = 2 * bpow radix2 1023) by (change 2 with (bpow radix2 1); rewrite <- bpow_plus; reflexivity).
  assert (bpow radix2 971 <= bpow radix2 1023) by (apply bpow_le; lia). lra.
Qed.
Lemma div_MAX x : 0 <= x -> x / MAX <= x * bpow radix2 (-1023).
Proof.
  intros H. unfold Rdiv. apply Rmult_le_compat_l; auto. change (-1023)%Z with (- (1023))%Z. rewrite bpow_opp.
  apply Rinv_le; [apply bpow_gt_0|apply MAX_big].
Qed.
Lemma TINY_eq : TINY = 2 * bpow radix2 (-1023).
Proof. unfold TINY. change 2 with (bpow radix2 1). rewrite <- bpow_plus. reflexivity. Qed.
Lemma small1023 : 0 < bpow radix2 (-1023) <= / 1048576.
Proof.
  split; [apply bpow_gt_0|]. replace (/ 1048576) with (bpow radix2 (-20)) by (simpl; lra). apply bpow_le; lia.
Qed.

Section A.
Context (eps : Epsilon).

Lemma minval_le n m i b c : Rsum n (fun j => rc m j i * rc m j i) <= b -> b * bpow radix2 (-1023) <= c -> TINY <= c -> minval n m i <= c.
Proof.
  intros Hb Hc Ht. rewrite minval_def. apply Rmax_lub; [|exact Ht].
  assert (0 <= Rsum n (fun j => rc m j i * rc m j i)) by (apply Rsum_nonneg; intros; nra).
  eapply Rle_trans; [apply div_MAX; auto|]. eapply Rle_trans; [|exact Hc]. apply Rmult_le_compat_r; auto. apply bpow_ge_0.
Qed.

Lemma pivot_success n i inn out r : (i <= r < n)%nat -> minval n inn i <= rc inn r i * rc inn r i -> inv_pivot n (inn, out) i <> None.
Proof.
  intros Hr H. unfold inv_pivot. tom. destruct (Rlt_bool_spec (rc inn i i * rc inn i i) (minval n inn i)) as [L|]; [|discriminate].
  destruct (find_row n inn i (minval n inn i)) eqn:F; [discriminate|].
  destruct (Nat.eq_dec r i) as [->|Ne]; [lra|].
  pose proof (find_row_none eps n inn i _ r F ltac:(lia)). lra.
Qed.
(** the pivot row after a successful pivot step *)
Lemma pivot_cases n i inn out inn' out' : inv_pivot n (inn, out) i = Some (inn', out') ->
  (minval n inn i <= rc inn i i * rc inn i i /\ inn' = inn) \/
  (rc inn i i * rc inn i i < minval n inn i /\ exists j, (i < j < n)%nat /\ minval n inn i <= rc inn j i * rc inn j i /\ inn' = add_row n inn i j).
Proof.
  unfold inv_pivot. tom. destruct (Rlt_bool_spec (rc inn i i * rc inn i i) (minval n inn i)) as [L|L].
  - destruct (find_row n inn i (minval n inn i)) as [j|] eqn:F; [|discriminate]. intros X; inversion X; subst. right. split; auto.
    exists j. apply find_row_some in F. tauto.
  - intros X; inversion X; subst. auto.
Qed.
Lemma add_row_rc n m i j r c : (r < n)%nat -> (c < n)%nat -> rc (add_row (H := Rnum eps) n m i j) r c = if Nat.eqb r i then rc m i c + rc m j c else rc m r c.
Proof. intros Hr Hc. unfold add_row. rewrite rc_mtab by auto. tom. destruct (Nat.eqb_spec r i); subst; auto. Qed.

(** the elements after dividing the pivot row and clearing the column *)
Lemma norm_sub_rc n i inn out r c : (i < n)%nat -> (r < n)%nat -> (c < n)%nat ->
  rc (fst (inv_sub n (inv_norm n (inn, out) i) i)) r c =
  if Nat.ltb i r then (if Nat.eqb c i then 0 else rc inn r c) - (if Nat.eqb c i then 1 else if Nat.ltb i c then rc inn i c / rc inn i i else rc inn i c) * rc inn r i
  else if Nat.eqb r i then (if Nat.eqb c i then 1 else if Nat.ltb i c then rc inn r c / rc inn i i else rc inn r c) else rc inn r c.
Proof.
  intros Hi Hr Hc. unfold inv_norm, inv_sub. cbn [fst].
  rewrite rc_mtab by auto. tom.
  set (a1 := mtab n (fun r0 c0 => if Nat.eqb r0 i then _ else rc inn r0 c0)).
  assert (A1 : forall r c, (r < n)%nat -> (c < n)%nat -> rc a1 r c = if Nat.eqb r i then (if Nat.eqb c i then 1 else if Nat.ltb i c then rc inn r c / rc inn i i else rc inn r c) else rc inn r c).
  { intros. unfold a1. rewrite rc_mtab by auto. reflexivity. }
  rewrite !A1 by auto. rewrite !Nat.eqb_refl.
  destruct (Nat.ltb_spec i r).
  - destruct (Nat.eqb_spec r i); [lia|]. destruct (Req_bool_spec (rc inn r i) 0) as [Z|Z]; simpl; auto. rewrite Z. ring.
  - destruct (Nat.eqb_spec r i); [subst|]; auto.
Qed.

(** squares bounded by sums *)
Lemma unit3 x y z : 0 + x * x + y * y + z * z = 1 -> (-1 <= x <= 1) /\ (-1 <= y <= 1) /\ (-1 <= z <= 1).
Proof. intros. assert (0 <= x * x) by nra. assert (0 <= y * y) by nra. assert (0 <= z * z) by nra. repeat split; nra. Qed.
Lemma sq_le_1 x y : x * x + y * y = 1 -> -1 <= x <= 1. Proof. intros. split; nra. Qed.

Lemma inverse_success_2 A B : orthogonal 2 (rc A) -> matrix_inverse 2 A B <> None.
Proof.
  intros O. pose proof (orthogonal_cols 2 _ O) as OC.
  assert (O00 := O 0%nat 0%nat ltac:(lia) ltac:(lia)). assert (O11 := O 1%nat 1%nat ltac:(lia) ltac:(lia)). assert (O01 := O 0%nat 1%nat ltac:(lia) ltac:(lia)).
  assert (C00 := OC 0%nat 0%nat ltac:(lia) ltac:(lia)). assert (C11 := OC 1%nat 1%nat ltac:(lia) ltac:(lia)). clear OC.
  unfold mmul, mtr, delta in *. cbn [Rsum Nat.eqb] in *.
  pose proof small1023 as SM. pose proof TINY_eq as TE.
  unfold matrix_inverse, inv_forward. cbn [seq fold_left].
  assert (M0 : minval 2 A 0 <= / 2).
  { apply (minval_le 2 A 0 1); [cbn [Rsum]; lra|lra|lra]. }
  destruct (inv_pivot 2 (A, B) 0) as [[a1 b1]|] eqn:P.
  2:{ exfalso. destruct (Rle_lt_dec (/ 2) (rc A 0 0 * rc A 0 0)).
      - apply (pivot_success 2 0 A B 0 ltac:(lia) ltac:(lra) P).
      - apply (pivot_success 2 0 A B 1 ltac:(lia) ltac:(lra) P). }
  pose proof (proj1 (pivot_sys eps 2 0 A B a1 b1 ltac:(lia) P)) as NZ.
  destruct (inv_sub 2 (inv_norm 2 (a1, b1) 0) 0) as [a2 b2] eqn:E.
  assert (E2 : forall r c, (r < 2)%nat -> (c < 2)%nat -> rc a2 r c = _) by (intros r c Hr Hc; pose proof (norm_sub_rc 2 0 a1 b1 r c ltac:(lia) Hr Hc) as X; rewrite E in X; exact X).
  assert (E01 := E2 0%nat 1%nat ltac:(lia) ltac:(lia)). assert (E11 := E2 1%nat 1%nat ltac:(lia) ltac:(lia)). clear E2. cbn [Nat.ltb Nat.leb Nat.eqb] in E01, E11.
  assert (R1 : rc a1 1 0 = rc A 1 0 /\ rc a1 1 1 = rc A 1 1).
  { apply pivot_cases in P as [(_ & ->)|(_ & j & _ & _ & ->)]; auto. }
  assert (R0 : exists k, rc a1 0 0 = rc A 0 0 + k * rc A 1 0 /\ rc a1 0 1 = rc A 0 1 + k * rc A 1 1 /\ 0 <= k <= 1).
  { apply pivot_cases in P as [(_ & ->)|(_ & j & Hj & _ & ->)]. exists 0. repeat split; lra. exists 1. rewrite !add_row_rc by lia. assert (j = 1%nat) as -> by lia. simpl. repeat split; lra. }
  destruct R1 as [R10 R11]. destruct R0 as (k & R00 & R01 & Hk).
  set (a := rc A 0 0) in *. set (b := rc A 0 1) in *. set (c := rc A 1 0) in *. set (d := rc A 1 1) in *.
  assert (Dt : (a * d - b * c) * (a * d - b * c) = 1) by nra.
  rewrite R10, R11 in E11. set (a' := rc a1 0 0) in *. set (b' := rc a1 0 1) in *.
  set (x := rc a2 0 1) in *. set (y := rc a2 1 1) in *.
  assert (Y : y * a' = a * d - b * c) by (rewrite E11, R00, R01; field; rewrite <- R00; exact NZ).
  assert (X : x * a' = b') by (rewrite E01; field; exact NZ).
  assert (Ba : -2 <= a' <= 2) by (assert (-1 <= a <= 1) by nra; assert (-1 <= c <= 1) by nra; rewrite R00; split; nra).
  assert (Bb : -2 <= b' <= 2) by (assert (-1 <= b <= 1) by nra; assert (-1 <= d <= 1) by nra; rewrite R01; split; nra).
  assert (Ya : (y * y) * (a' * a') = 1) by (rewrite <- Dt, <- Y; ring).
  assert (A2 : 0 < a' * a' <= 4) by nra.
  assert (Yb : / 4 <= y * y) by nra.
  assert (Xb : x * x <= 4 * (y * y)).
  { assert ((x * x) * (a' * a') <= (4 * (y * y)) * (a' * a')) by nra. apply Rmult_le_reg_r with (a' * a'); lra. }
  assert (M1 : minval 2 a2 1 <= y * y).
  { apply (minval_le 2 a2 1 (5 * (y * y))); [cbn [Rsum]; fold x y; lra|nra|lra]. }
  destruct (inv_pivot 2 (a2, b2) 1) as [[a3 b3]|] eqn:P1.
  - destruct (inv_sub 2 (inv_norm 2 (a3, b3) 1) 1). discriminate.
  - exfalso. apply (pivot_success 2 1 a2 b2 1 ltac:(lia) M1 P1).
Qed.

(** Neither zero nor too small to be squared. *)
Definition not_denormal (x : R) : Prop := x = 0 \/ bpow radix2 (-500) <= Rabs x.
Lemma not_denormal_sq x : not_denormal x -> x = 0 \/ bpow radix2 (-1000) <= x * x.
Proof.
  intros [H|H]; [auto|right]. assert (bpow radix2 (-1000) = bpow radix2 (-500) * bpow radix2 (-500)) as -> by (rewrite <- bpow_plus; reflexivity).
  assert (x * x = Rabs x * Rabs x) as -> by (rewrite <- Rabs_mult; symmetry; apply Rabs_pos_eq; nra).
  assert (0 < bpow radix2 (-500)) by apply bpow_gt_0. nra.
Qed.

Lemma inverse_success_3 A B : orthogonal 3 (rc A) -> (forall r, (r < 3)%nat -> not_denormal (rc A r 0%nat)) -> matrix_inverse 3 A B <> None.
Proof.
  intros O ND. pose proof (orthogonal_cols 3 _ O) as OC.
  assert (O00 := O 0%nat 0%nat ltac:(lia) ltac:(lia)). assert (O11 := O 1%nat 1%nat ltac:(lia) ltac:(lia)). assert (O22 := O 2%nat 2%nat ltac:(lia) ltac:(lia)).
  assert (C00 := OC 0%nat 0%nat ltac:(lia) ltac:(lia)). assert (C11 := OC 1%nat 1%nat ltac:(lia) ltac:(lia)). assert (C22 := OC 2%nat 2%nat ltac:(lia) ltac:(lia)).
  assert (C01 := OC 0%nat 1%nat ltac:(lia) ltac:(lia)). assert (C02 := OC 0%nat 2%nat ltac:(lia) ltac:(lia)). assert (C12 := OC 1%nat 2%nat ltac:(lia) ltac:(lia)). clear OC O.
  unfold mmul, mtr, delta in *. cbn [Rsum Nat.eqb] in *.
  pose proof small1023 as SM. pose proof TINY_eq as TE.
  unfold matrix_inverse, inv_forward. cbn [seq fold_left].
  assert (M0 : minval 3 A 0 <= TINY).
  { apply (minval_le 3 A 0 1); [cbn [Rsum]; lra|lra|lra]. }
  destruct (inv_pivot 3 (A, B) 0) as [[a1 b1]|] eqn:P.
  2:{ exfalso. destruct (Rle_lt_dec TINY (rc A 0 0 * rc A 0 0)); [|destruct (Rle_lt_dec TINY (rc A 1 0 * rc A 1 0))].
      - apply (pivot_success 3 0 A B 0 ltac:(lia) ltac:(lra) P).
      - apply (pivot_success 3 0 A B 1 ltac:(lia) ltac:(lra) P).
      - apply (pivot_success 3 0 A B 2 ltac:(lia) ltac:(lra) P). }
  (* the pivot row: row 0, or row j if the element was zero, added *)
  assert (T0 : 0 < TINY < bpow radix2 (-1000)) by (split; [apply bpow_gt_0|apply bpow_lt; lia]).
  assert (R0 : exists k1 k2, (forall c, (c < 3)%nat -> rc a1 0 c = rc A 0 c + k1 * rc A 1 c + k2 * rc A 2 c) /\
            ((k1 = 0 /\ k2 = 0) \/ (k1 = 1 /\ k2 = 0) \/ (k1 = 0 /\ k2 = 1)) /\ bpow radix2 (-1000) <= rc a1 0 0 * rc a1 0 0 /\
            (forall r c, (0 < r < 3)%nat -> (c < 3)%nat -> rc a1 r c = rc A r c)).
  { apply pivot_cases in P as [(L & ->)|(L & j & Hj & L' & ->)].
    - exists 0, 0. split; [intros; ring|]. split; [auto|]. split; [|auto].
      destruct (not_denormal_sq _ (ND 0%nat ltac:(lia))) as [Z|]; auto. rewrite Z in L. pose proof (minval_pos eps 3 A 0). lra.
    - assert (Z : rc A 0 0 = 0) by (destruct (not_denormal_sq _ (ND 0%nat ltac:(lia))) as [Z|]; auto; lra).
      assert (Zj : bpow radix2 (-1000) <= rc A j 0 * rc A j 0).
      { destruct (not_denormal_sq _ (ND j ltac:(lia))) as [Zj|]; auto. rewrite Zj in L'. pose proof (minval_pos eps 3 A 0). lra. }
      assert (j = 1 \/ j = 2)%nat as [-> | ->] by lia.
      + exists 1, 0. split; [intros; rewrite add_row_rc by lia; simpl; ring|]. split; [auto|].
        split; [rewrite add_row_rc by lia; simpl; rewrite Z, Rplus_0_l; auto|]. intros. rewrite add_row_rc by lia. destruct (Nat.eqb_spec r 0); [lia|auto].
      + exists 0, 1. split; [intros; rewrite add_row_rc by lia; simpl; ring|]. split; [auto|].
        split; [rewrite add_row_rc by lia; simpl; rewrite Z, Rplus_0_l; auto|]. intros. rewrite add_row_rc by lia. destruct (Nat.eqb_spec r 0); [lia|auto]. }
  destruct R0 as (k1 & k2 & Ra & Hk & Pa & Rr).
  assert (NZ : rc a1 0 0 <> 0) by (intros Z; rewrite Z in Pa; lra).
  destruct (inv_sub 3 (inv_norm 3 (a1, b1) 0) 0) as [a2 b2] eqn:E.
  assert (E2 : forall r c, (r < 3)%nat -> (c < 3)%nat -> rc a2 r c = _) by (intros r c Hr Hc; pose proof (norm_sub_rc 3 0 a1 b1 r c ltac:(lia) Hr Hc) as X; rewrite E in X; exact X).
  assert (E01 := E2 0%nat 1%nat ltac:(lia) ltac:(lia)). assert (E02 := E2 0%nat 2%nat ltac:(lia) ltac:(lia)).
  assert (E11 := E2 1%nat 1%nat ltac:(lia) ltac:(lia)). assert (E12 := E2 1%nat 2%nat ltac:(lia) ltac:(lia)).
  assert (E21 := E2 2%nat 1%nat ltac:(lia) ltac:(lia)). assert (E22 := E2 2%nat 2%nat ltac:(lia) ltac:(lia)).
  clear E2 E. cbn [Nat.ltb Nat.leb Nat.eqb] in *.
  rewrite !(Rr 1%nat), !(Rr 2%nat) in * by lia. clear Rr.
  assert (A0 := Ra 0%nat ltac:(lia)). assert (A1 := Ra 1%nat ltac:(lia)). assert (A2 := Ra 2%nat ltac:(lia)). clear Ra P M0 ND.
  set (p := rc a1 0 0) in *. set (q := rc a1 0 1) in *. set (r := rc a1 0 2) in *.
  set (t1 := rc a2 0 1) in *. set (t2 := rc a2 0 2) in *.
  set (s11 := rc a2 1 1) in *. set (s12 := rc a2 1 2) in *. set (s21 := rc a2 2 1) in *. set (s22 := rc a2 2 2) in *.
  (* the first reduced column *)
  set (w0 := rc A 0 1 - t1 * rc A 0 0).
  assert (W : w0 * w0 + s11 * s11 + s21 * s21 = 1 + t1 * t1).
  { unfold w0. rewrite E11, E21. rewrite <- E01 in *.
    transitivity ((rc A 0 1 * rc A 0 1 + rc A 1 1 * rc A 1 1 + rc A 2 1 * rc A 2 1) + t1 * t1 * (rc A 0 0 * rc A 0 0 + rc A 1 0 * rc A 1 0 + rc A 2 0 * rc A 2 0)
      - 2 * t1 * (rc A 0 0 * rc A 0 1 + rc A 1 0 * rc A 1 1 + rc A 2 0 * rc A 2 1)); [ring|].
    rewrite !Rplus_0_l in *. rewrite C00, C11, C01. ring. }
  assert (Q : t1 * p = q) by (rewrite E01; field; auto).
  assert (Q2 : t2 * p = r) by (rewrite E02; field; auto).
  assert (W0 : w0 + k1 * s11 + k2 * s21 = 0).
  { unfold w0. rewrite E11, E21, <- E01. transitivity (q - t1 * p); [rewrite A1, A0; ring|lra]. }
  assert (W0' : w0 * w0 <= s11 * s11 + s21 * s21).
  { destruct Hk as [(-> & ->)|[(-> & ->)|(-> & ->)]]; [assert (w0 = 0) as -> by lra|assert (w0 = - s11) as -> by lra|assert (w0 = - s21) as -> by lra]; nra. }
  assert (S1 : (1 + t1 * t1) / 2 <= s11 * s11 + s21 * s21) by lra.
  assert (T1 : 0 <= t1 * t1) by nra.
  assert (M1 : minval 3 a2 1 <= (s11 * s11 + s21 * s21) / 2).
  { apply (minval_le 3 a2 1 (3 * (s11 * s11 + s21 * s21))); [cbn [Rsum]; fold t1 s11 s21; lra|nra|lra]. }
  destruct (inv_pivot 3 (a2, b2) 1) as [[a3 b3]|] eqn:P1.
  2:{ exfalso. destruct (Rle_lt_dec ((s11 * s11 + s21 * s21) / 2) (s11 * s11)).
      - apply (pivot_success 3 1 a2 b2 1 ltac:(lia) ltac:(fold s11; lra) P1).
      - apply (pivot_success 3 1 a2 b2 2 ltac:(lia) ltac:(fold s21; lra) P1). }
  pose proof (proj1 (pivot_sys eps 3 1 a2 b2 a3 b3 ltac:(lia) P1)) as NZ1.
  assert (R1 : exists l, (l = 0 \/ l = 1) /\ rc a3 1 1 = s11 + l * s21 /\ rc a3 1 2 = s12 + l * s22 /\ rc a3 2 1 = s21 /\ rc a3 2 2 = s22 /\ rc a3 0 2 = t2).
  { apply pivot_cases in P1 as [(_ & ->)|(_ & j & Hj & _ & ->)].
    - exists 0. unfold s11, s12, s21, s22. repeat split; try lra; auto.
    - assert (j = 2)%nat as -> by lia. exists 1. rewrite !add_row_rc by lia. simpl. unfold s11, s12, s21, s22. repeat split; try lra; auto. }
  destruct R1 as (l & Hl & B11 & B12 & B21 & B22 & B02).
  destruct (inv_sub 3 (inv_norm 3 (a3, b3) 1) 1) as [a4 b4] eqn:E.
  assert (E2 : forall r c, (r < 3)%nat -> (c < 3)%nat -> rc a4 r c = _) by (intros r' c Hr Hc; pose proof (norm_sub_rc 3 1 a3 b3 r' c ltac:(lia) Hr Hc) as X; rewrite E in X; exact X).
  assert (F02 := E2 0%nat 2%nat ltac:(lia) ltac:(lia)). assert (F12 := E2 1%nat 2%nat ltac:(lia) ltac:(lia)). assert (F22 := E2 2%nat 2%nat ltac:(lia) ltac:(lia)).
  clear E2 E. cbn [Nat.ltb Nat.leb Nat.eqb] in *. rewrite B11, B12, B21, B22, B02 in *. clear B11 B12 B21 B22 B02 P1 M1.
  set (u := rc a4 1 2) in *. set (z2 := rc a4 2 2) in *. rewrite <- F12 in F22.
  (* the second reduced column *)
  set (z1 := s12 - u * s11). set (z0 := (rc A 0 2 - t2 * rc A 0 0) - u * w0).
  set (f := t2 - u * t1).
  assert (Z : z0 * z0 + z1 * z1 + z2 * z2 = 1 + u * u + f * f).
  { unfold z0, z1, f, w0. rewrite F22, E11, E12, E21, E22. rewrite <- E01, <- E02.
    transitivity ((rc A 0 2 * rc A 0 2 + rc A 1 2 * rc A 1 2 + rc A 2 2 * rc A 2 2) + u * u * (rc A 0 1 * rc A 0 1 + rc A 1 1 * rc A 1 1 + rc A 2 1 * rc A 2 1)
      + (t2 - u * t1) * (t2 - u * t1) * (rc A 0 0 * rc A 0 0 + rc A 1 0 * rc A 1 0 + rc A 2 0 * rc A 2 0)
      - 2 * u * (rc A 0 1 * rc A 0 2 + rc A 1 1 * rc A 1 2 + rc A 2 1 * rc A 2 2)
      - 2 * (t2 - u * t1) * (rc A 0 0 * rc A 0 2 + rc A 1 0 * rc A 1 2 + rc A 2 0 * rc A 2 2)
      + 2 * u * (t2 - u * t1) * (rc A 0 0 * rc A 0 1 + rc A 1 0 * rc A 1 1 + rc A 2 0 * rc A 2 1)).
    - ring.
    - rewrite !Rplus_0_l in *. rewrite C00, C11, C22, C01, C02, C12. ring. }
  assert (Z1 : z1 + l * z2 = 0).
  { unfold z1. rewrite F22, F12. field. exact NZ1. }
  assert (Z0 : z0 + k1 * z1 + k2 * z2 = 0).
  { unfold z0, z1, w0. rewrite F22, E11, E12, E21, E22. rewrite <- E01, <- E02.
    transitivity ((r - t2 * p) - u * (q - t1 * p)); [rewrite A0, A1, A2; ring|rewrite Q, Q2; ring]. }
  assert (Z1' : z1 * z1 <= z2 * z2) by (destruct Hl as [-> | ->]; [assert (z1 = 0) as -> by lra|assert (z1 = - z2) as -> by lra]; nra).
  assert (Z0' : z0 * z0 <= z2 * z2).
  { destruct Hk as [(-> & ->)|[(-> & ->)|(-> & ->)]]; [assert (z0 = 0) as -> by lra|assert (z0 = - z1) as -> by lra|assert (z0 = - z2) as -> by lra]; nra. }
  assert (Zb : 1 + u * u + f * f <= 3 * (z2 * z2)) by lra.
  assert (0 <= u * u) by nra. assert (0 <= f * f) by nra.
  (* t2 is bounded because the pivot is not denormal *)
  assert (Br : r * r <= 4).
  { destruct (unit3 (rc A 0 2) (rc A 1 2) (rc A 2 2)) as (U0 & U1 & U2); [lra|].
    rewrite A2. clear - U0 U1 U2 Hk. destruct Hk as [(-> & ->)|[(-> & ->)|(-> & ->)]]; nra. }
  assert (Bt : t2 * t2 <= bpow radix2 1002).
  { assert (G : bpow radix2 1002 * bpow radix2 (-1000) = 4) by (rewrite <- bpow_plus; reflexivity).
    assert (0 < bpow radix2 1002) by apply bpow_gt_0.
    apply Rmult_le_reg_r with (p * p); [lra|]. replace (t2 * t2 * (p * p)) with (r * r) by (rewrite <- Q2; ring).
    eapply Rle_trans; [exact Br|]. rewrite <- G. apply Rmult_le_compat_l; lra. }
  assert (M2 : minval 3 a4 2 <= z2 * z2).
  { apply (minval_le 3 a4 2 (bpow radix2 1002 + 4 * (z2 * z2))).
    - cbn [Rsum]. fold u z2. rewrite F02. lra.
    - rewrite Rmult_plus_distr_r. rewrite <- bpow_plus. assert (bpow radix2 (1002 + -1023) <= / 1048576) by (replace (/ 1048576) with (bpow radix2 (-20)) by (simpl; lra); apply bpow_le; lia). clear - H1 Zb H H0 SM. nra.
    - lra. }
  destruct (inv_pivot 3 (a4, b4) 2) as [[a5 b5]|] eqn:P2.
  - destruct (inv_sub 3 (inv_norm 3 (a5, b5) 2) 2). discriminate.
  - exfalso. apply (pivot_success 3 2 a4 b4 2 ltac:(lia) M2 P2).
Qed.
End A.
