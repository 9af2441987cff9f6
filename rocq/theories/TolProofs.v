(** Rotation by a quaternion with a positive tolerance and no condition on the vectors:
    Dot and Cross may round to zero, the results stay within a multiple of the tolerance. *)
From Coq Require Import Reals Lra Lia List Bool Psatz ZArith NArith.
From Flocq Require Import Core.Zaux Core.Raux.
From Verif Require Import Base Scalar ConstModel VecModel RotModel QuatModel RSpec RLib VecSpec VecProofs VecProofs2 VecProofs4 RotSpec QuatSpec QuatProofs QuatProofs2 QuatProofs3 MotionSpec DriftProofs AngleProofs.
Import ListNotations.
Open Scope R_scope.

(** q x q^-1 *)
Definition spin (h : ham) (x : nat -> R) : nat -> R := hpart (sandwich h x).

Lemma dist_coords a b k : 0 <= k -> (forall i, (i < 3)%nat -> Rabs (a i - b i) <= k) -> dist 3 a b <= 7 / 4 * k.
Proof.
  intros Hk H. unfold dist. rewrite <- (sqrt_square (7 / 4 * k)) by lra. apply sqrt_le_1_alt. unfold dist2.
  pose proof (norm2_max 3 (fun i => a i - b i) k Hk H) as M. cbn [INR] in M. nra.
Qed.
Lemma dist_comm n a b : dist n a b = dist n b a.
Proof. unfold dist, dist2, norm2, inner. f_equal. apply Rsum_ext. intros; ring. Qed.
Lemma dist_ext n a b c d : (forall i, (i < n)%nat -> a i = c i) -> (forall i, (i < n)%nat -> b i = d i) -> dist n a b = dist n c d.
Proof. intros A B. unfold dist, dist2, norm2, inner. f_equal. apply Rsum_ext. intros i Hi. rewrite A, B by auto. reflexivity. Qed.
Lemma norm_ext n a b : (forall i, (i < n)%nat -> a i = b i) -> norm n a = norm n b.
Proof. intros E. unfold norm, norm2. f_equal. apply inner_ext; auto. Qed.
Lemma norm_dist n a b : norm n a <= norm n b + dist n a b.
Proof.
  assert (E : norm n a = norm n (fun i => b i + (a i - b i))) by (apply norm_ext; intros; ring). rewrite E at 1. apply norm_triangle.
Qed.
Lemma dist_same n a b : (forall i, (i < n)%nat -> a i = b i) -> dist n a b = 0.
Proof. intros E. unfold dist, dist2. rewrite <- sqrt_0. f_equal. apply Rsum_zero. intros i Hi. rewrite (E i Hi). ring. Qed.

(** what rotate computes when nothing is rounded; for unit h this is spin *)
Definition formula (h : ham) (v : nat -> R) (i : nat) : R :=
  let u := fun k => hpart h k in
  (2 * hw h * hw h - 1) * v i + 2 * u i * inner 3 u v + 2 * hw h * cross_coord u v i.
Lemma formula_spin h v i : hnorm2 h = 1 -> (i < 3)%nat -> formula h v i = spin h v i.
Proof.
  intros U Hi. unfold formula, spin, inner. cbn [Rsum]. unfold hnorm2 in U. destruct h as [w x y z]. cbn [hw hx hy hz] in *.
  replace (2 * w * w - 1) with (w * w - x * x - y * y - z * z) by (rewrite <- U; ring).
  destruct i as [|[|[|]]]; try lia; unfold sandwich, hmul, hconj, pure; cbn [hpart hw hx hy hz cross_coord]; ring.
Qed.
Lemma spin_linear h x y i : spin h (fun k => x k - y k) i = spin h x i - spin h y i.
Proof. destruct h as [w a b c]. unfold spin, sandwich, hmul, hconj, pure. destruct i as [|[|]]; cbn [hpart hw hx hy hz]; ring. Qed.
Lemma spin_norm2 h x : hnorm2 h = 1 -> norm2 3 (spin h x) = norm2 3 x.
Proof.
  intros U. assert (E : norm2 3 (spin h x) = hnorm2 h * hnorm2 h * norm2 3 x).
  { destruct h as [w a b c]. unfold norm2, inner. cbn [Rsum]. unfold spin, sandwich, hmul, hconj, pure, hnorm2. cbn [hpart hw hx hy hz]. ring. }
  rewrite E, U. ring.
Qed.
Lemma spin_norm h x : hnorm2 h = 1 -> norm 3 (spin h x) = norm 3 x.
Proof. intros U. unfold norm. rewrite spin_norm2 by auto. reflexivity. Qed.
Lemma spin_dist h x y : hnorm2 h = 1 -> dist 3 (spin h x) (spin h y) = dist 3 x y.
Proof.
  intros U. unfold dist, dist2. f_equal. rewrite <- (spin_norm2 h (fun i => x i - y i) U). apply inner_ext; intros i Hi; symmetry; apply spin_linear.
Qed.
Lemma spin_mul h k x i : spin h (spin k x) i = spin (hmul h k) x i.
Proof.
  unfold spin. rewrite <- (sandwich_compose k h x (hpart (sandwich k x))); [reflexivity|].
  rewrite (sandwich_pure k x) at 2. reflexivity.
Qed.
Lemma spin_one x i : (i < 3)%nat -> spin hone x i = x i.
Proof. intros Hi. unfold spin, sandwich, hmul, hconj, pure, hone. destruct i as [|[|[|]]]; try lia; cbn [hpart hw hx hy hz]; ring. Qed.
Lemma spin_inverse h x i : hnorm2 h = 1 -> (i < 3)%nat -> spin (hconj h) (spin h x) i = x i.
Proof. intros U Hi. rewrite spin_mul, (proj2 (hmul_conj h U)). apply spin_one; auto. Qed.
Lemma spin_inverse' h x i : hnorm2 h = 1 -> (i < 3)%nat -> spin h (spin (hconj h) x) i = x i.
Proof. intros U Hi. rewrite spin_mul, (proj1 (hmul_conj h U)). apply spin_one; auto. Qed.

Section T.
Context (eps : Epsilon).
Implicit Types (v o : vector R) (q p : quat R).

Lemma q4_part q i : (i < 3)%nat -> hpart (q4 q) i = co (qv q) i.
Proof. intros Hi. destruct i as [|[|[|]]]; try lia; reflexivity. Qed.

(** rotate against the formula, for a quaternion of any length *)
Lemma rotate_formula q v B i : 0 <= (eps : R) -> qdims q -> dims 3 v -> 0 <= B -> hnorm2 (q4 q) <= B * B -> (i < 3)%nat ->
  Rabs (co (vec_rotate_q v q) i - formula (q4 q) (co v) i) <= 8 * eps * B * Rmin B (norm 3 (co v)).
Proof.
  intros He Dq Dv HB Hq Hi. pose proof (bounded_of q B HB Hq) as Bq. pose proof (fun i Hi => coord_norm 3 (co v) i Hi) as Bv.
  pose proof (dot_error eps 3 (qv q) v B _ ltac:(lia) He Dq Dv Bq Bv) as Ed. pose proof (cross3_error eps (qv q) v B _ i He Dq Dv Bq Bv Hi) as Ec.
  set (m := Rmin B (norm 3 (co v))) in *. assert (Pm : 0 <= m) by (apply Rmin_glb; [auto|apply norm_nonneg]).
  rewrite (rotate_q_co eps) by auto. unfold formula.
  assert (I : inner 3 (fun k => hpart (q4 q) k) (co v) = inner 3 (co (qv q)) (co v)) by (apply inner_ext; intros; auto using q4_part).
  assert (C : cross_coord (fun k => hpart (q4 q) k) (co v) i = cross_coord (co (qv q)) (co v) i) by (destruct i as [|[|[|]]]; try lia; reflexivity).
  rewrite I, C. cbv zeta. rewrite (q4_part q i Hi). change (hw (q4 q)) with (qw q).
  set (e1 := dot 3 (qv q) v - inner 3 (co (qv q)) (co v)) in *. set (e2 := co (cross3 (qv q) v) i - cross_coord (co (qv q)) (co v) i) in *.
  replace (_ - _) with (2 * (co (qv q) i * e1) + 2 * (qw q * e2)) by (unfold e1, e2; ring).
  assert (W : Rabs (qw q) <= B). { apply Rabs_le. unfold hnorm2, q4 in Hq. cbn [hw hx hy hz] in Hq. split; nra. }
  specialize (Bq i Hi).
  assert (M1 : Rabs (co (qv q) i * e1) <= B * (2 * eps * m)) by (rewrite Rabs_mult; apply Rmult_le_compat; auto using Rabs_pos).
  assert (M2 : Rabs (qw q * e2) <= B * (2 * eps * m)) by (rewrite Rabs_mult; apply Rmult_le_compat; auto using Rabs_pos).
  apply Rabs_le_inv in M1. apply Rabs_le_inv in M2. apply Rabs_le. lra.
Qed.
Lemma rotate_tol q v : 0 <= (eps : R) -> qdims q -> dims 3 v -> unit_quat q ->
  dist 3 (co (vec_rotate_q v q)) (spin (q4 q) (co v)) <= 14 * eps * Rmin 1 (norm 3 (co v)).
Proof.
  intros He Dq Dv U. assert (Pm : 0 <= Rmin 1 (norm 3 (co v))) by (apply Rmin_glb; [lra|apply norm_nonneg]).
  replace (14 * eps * Rmin 1 (norm 3 (co v))) with (7 / 4 * (8 * eps * 1 * Rmin 1 (norm 3 (co v)))) by field.
  apply dist_coords; [apply Rmult_le_pos; lra|]. intros i Hi. rewrite <- formula_spin by auto. apply rotate_formula; auto; try lra. unfold unit_quat in U. rewrite U. lra.
Qed.
Lemma min_grow k x y : 0 <= k -> 0 <= x -> y <= x * (1 + k) -> Rmin 1 y <= Rmin 1 x * (1 + k).
Proof. intros Hk Hx Hy. unfold Rmin. destruct (Rle_dec 1 y), (Rle_dec 1 x); nra. Qed.
Lemma rotate_length q v : 0 <= (eps : R) -> qdims q -> dims 3 v -> unit_quat q -> norm 3 (co (vec_rotate_q v q)) <= norm 3 (co v) * (1 + 14 * eps).
Proof.
  intros He Dq Dv U. pose proof (norm_dist 3 (co (vec_rotate_q v q)) (spin (q4 q) (co v))) as N. rewrite spin_norm in N by exact U.
  pose proof (rotate_tol q v He Dq Dv U) as T. pose proof (Rmin_r 1 (norm 3 (co v))). assert (14 * eps * Rmin 1 (norm 3 (co v)) <= 14 * eps * norm 3 (co v)) by (apply Rmult_le_compat_l; lra). lra.
Qed.
Lemma inverse_q q : qdims q -> unit_quat q -> qdims (quat_inverse q) /\ unit_quat (quat_inverse q) /\ q4 (quat_inverse q) = hconj (q4 q).
Proof.
  intros D U. split; [apply dims_tab|]. rewrite (inverse_q4 eps). split; [|reflexivity]. unfold unit_quat. rewrite (inverse_q4 eps), hconj_norm. exact U.
Qed.
Lemma undo_gen q r v : 0 <= (eps : R) <= / 100 -> qdims q -> qdims r -> dims 3 v -> unit_quat q -> unit_quat r -> (forall i, (i < 3)%nat -> spin (q4 r) (spin (q4 q) (co v)) i = co v i) ->
  dist 3 (co (vec_rotate_q (vec_rotate_q v q) r)) (co v) <= 30 * eps * Rmin 1 (norm 3 (co v)).
Proof.
  intros He Dq Dr Dv Uq Ur Inv. set (w := vec_rotate_q v q). assert (Dw : dims 3 w) by apply rotate_q_dims.
  pose proof (rotate_tol r w ltac:(lra) Dr Dw Ur) as T2. pose proof (rotate_tol q v ltac:(lra) Dq Dv Uq) as T1. fold w in T1.
  pose proof (rotate_length q v ltac:(lra) Dq Dv Uq) as L. fold w in L.
  rewrite <- (spin_dist (q4 r)) in T1 by exact Ur.
  rewrite (dist_ext 3 _ _ (spin (q4 r) (co w)) (co v)) in T1 by (auto; intros; apply Inv; auto).
  pose proof (dist_triangle 3 (co (vec_rotate_q w r)) (spin (q4 r) (co w)) (co v)) as Tr.
  pose proof (min_grow (14 * eps) (norm 3 (co v)) (norm 3 (co w)) ltac:(lra) (norm_nonneg _ _) L) as G.
  assert (Pm : 0 <= Rmin 1 (norm 3 (co v))) by (apply Rmin_glb; [lra|apply norm_nonneg]). set (m := Rmin 1 (norm 3 (co v))) in *.
  assert (14 * eps * Rmin 1 (norm 3 (co w)) <= 14 * eps * (m * (1 + 14 * eps))) by (apply Rmult_le_compat_l; lra).
  assert (0 <= eps * m) by (apply Rmult_le_pos; lra). assert (14 * eps * (m * (1 + 14 * eps)) <= 16 * (eps * m)) by nra. lra.
Qed.
Lemma undo_tol q v : 0 <= (eps : R) <= / 100 -> qdims q -> dims 3 v -> unit_quat q ->
  dist 3 (co (vec_rotate_q (vec_rotate_q v q) (quat_inverse q))) (co v) <= 30 * eps * Rmin 1 (norm 3 (co v)) /\
  dist 3 (co (vec_rotate_q (vec_rotate_q v (quat_inverse q)) q)) (co v) <= 30 * eps * Rmin 1 (norm 3 (co v)).
Proof.
  intros He Dq Dv U. destruct (inverse_q q Dq U) as (Di & Ui & Ei). split; apply undo_gen; auto; intros i Hi; rewrite Ei; [apply spin_inverse|apply spin_inverse']; auto.
Qed.

(** ** Composition *)
Lemma formula_perturbed h k (v : nat -> R) i e : 0 <= e <= / 10 -> hnorm2 k = 1 -> Rabs (hw h - hw k) <= e -> (forall j, (j < 3)%nat -> Rabs (hpart h j - hpart k j) <= e) -> (i < 3)%nat ->
  Rabs (formula h v i - formula k v i) <= 18 * e * norm 3 v.
Proof.
  intros He U Hw Hp Hi. set (N := norm 3 v). pose proof (norm_nonneg 3 v) as PN. fold N in PN.
  set (w := hw h) in *. set (w0 := hw k) in *. set (u := fun j => hpart h j). set (u0 := fun j => hpart k j).
  assert (Hu : forall j, (j < 3)%nat -> Rabs (u j - u0 j) <= e) by exact Hp.
  assert (W0 : Rabs w0 <= 1). { unfold hnorm2 in U. fold w0 in U. apply Rabs_le. split; nra. }
  assert (U0 : norm 3 u0 <= 1).
  { unfold norm. rewrite <- sqrt_1. apply sqrt_le_1_alt. unfold norm2, inner. cbn [Rsum]. unfold u0. destruct k as [kw kx ky kz]. unfold hnorm2 in U. cbn [hw hx hy hz hpart] in *. nra. }
  assert (U0i : Rabs (u0 i) <= 1) by (eapply Rle_trans; [apply (coord_norm 3); auto|exact U0]).
  set (d := fun j => u j - u0 j).
  assert (Dn : norm 3 d <= 7 / 4 * e). { apply (dist_coords u u0 e); [lra|exact Hu]. }
  assert (I0 : Rabs (inner 3 u0 v) <= N). { eapply Rle_trans; [apply Rabs_inner_le_norm|]. fold N. rewrite <- (Rmult_1_l N) at 2. apply Rmult_le_compat_r; auto. }
  assert (Id : Rabs (inner 3 d v) <= 7 / 4 * e * N). { eapply Rle_trans; [apply Rabs_inner_le_norm|]. apply Rmult_le_compat_r; auto. }
  assert (CB : forall f, Rabs (cross_coord f v i) <= norm 3 f * N).
  { intros f. assert (L : cross_coord f v i * cross_coord f v i <= norm2 3 f * norm2 3 v).
    { unfold norm2, inner. cbn [Rsum]. destruct i as [|[|[|]]]; try lia; cbn [cross_coord];
        set (a := f 0%nat); set (b := f 1%nat); set (c := f 2%nat); set (x := v 0%nat); set (y := v 1%nat); set (z := v 2%nat).
      - pose proof (pow2_ge_0 (b * y + c * z)). pose proof (Rmult_le_pos _ _ (pow2_ge_0 a) (pow2_ge_0 x)). pose proof (pow2_ge_0 (a * y)). pose proof (pow2_ge_0 (a * z)). pose proof (pow2_ge_0 (b * x)). pose proof (pow2_ge_0 (c * x)). nra.
      - pose proof (pow2_ge_0 (c * z + a * x)). pose proof (Rmult_le_pos _ _ (pow2_ge_0 b) (pow2_ge_0 y)). pose proof (pow2_ge_0 (b * x)). pose proof (pow2_ge_0 (b * z)). pose proof (pow2_ge_0 (a * y)). pose proof (pow2_ge_0 (c * y)). nra.
      - pose proof (pow2_ge_0 (a * x + b * y)). pose proof (Rmult_le_pos _ _ (pow2_ge_0 c) (pow2_ge_0 z)). pose proof (pow2_ge_0 (c * x)). pose proof (pow2_ge_0 (c * y)). pose proof (pow2_ge_0 (a * z)). pose proof (pow2_ge_0 (b * z)). nra. }
    apply root_lower; [apply Rabs_pos|apply Rmult_le_pos; auto using norm_nonneg|].
    replace (Rabs (cross_coord f v i) * Rabs (cross_coord f v i)) with (cross_coord f v i * cross_coord f v i) by (unfold Rabs; destruct (Rcase_abs _); ring).
    replace (norm 3 f * N * (norm 3 f * N)) with (norm 3 f * norm 3 f * (N * N)) by ring. unfold N. rewrite !norm_sqr. exact L. }
  assert (C0 : Rabs (cross_coord u0 v i) <= N). { eapply Rle_trans; [apply CB|]. rewrite <- (Rmult_1_l N) at 2. apply Rmult_le_compat_r; auto. }
  assert (Cd : Rabs (cross_coord d v i) <= 7 / 4 * e * N). { eapply Rle_trans; [apply CB|]. apply Rmult_le_compat_r; auto. }
  assert (Vi : Rabs (v i) <= N) by (apply coord_norm; auto).
  assert (Iu : inner 3 u v = inner 3 u0 v + inner 3 d v) by (unfold d, inner; cbn [Rsum]; ring).
  assert (Cu : cross_coord u v i = cross_coord u0 v i + cross_coord d v i) by (unfold d; destruct i as [|[|[|]]]; try lia; cbn [cross_coord]; ring).
  change (formula h v i) with ((2 * w * w - 1) * v i + 2 * u i * inner 3 u v + 2 * w * cross_coord u v i).
  change (formula k v i) with ((2 * w0 * w0 - 1) * v i + 2 * u0 i * inner 3 u0 v + 2 * w0 * cross_coord u0 v i). rewrite Iu, Cu.
  set (dw := w - w0) in *. assert (Ew : w = w0 + dw) by (unfold dw; ring). assert (Eu : u i = u0 i + d i) by (unfold d; ring). rewrite Ew, Eu.
  specialize (Hu i Hi). fold (d i) in Hu. clearbody dw. clear Ew Eu Iu Cu CB Dn U0 U.
  set (vi := v i) in *. set (a := u0 i) in *. set (da := d i) in *. set (I := inner 3 u0 v) in *. set (dI := inner 3 d v) in *. set (C := cross_coord u0 v i) in *. set (dC := cross_coord d v i) in *.
  replace (_ - _) with (4 * (w0 * dw * vi) + 2 * (dw * dw * vi) + 2 * (da * I) + 2 * (a * dI) + 2 * (da * dI) + 2 * (dw * C) + 2 * (w0 * dC) + 2 * (dw * dC)) by ring.
  assert (P2 : forall s t S T, Rabs s <= S -> Rabs t <= T -> Rabs (s * t) <= S * T) by (intros; rewrite Rabs_mult; apply Rmult_le_compat; auto using Rabs_pos).
  pose proof (P2 _ _ _ _ (P2 _ _ _ _ W0 Hw) Vi) as B1. pose proof (P2 _ _ _ _ (P2 _ _ _ _ Hw Hw) Vi) as B2. pose proof (P2 _ _ _ _ Hu I0) as B3. pose proof (P2 _ _ _ _ U0i Id) as B4. pose proof (P2 _ _ _ _ Hu Id) as B5.
  pose proof (P2 _ _ _ _ Hw C0) as B6. pose proof (P2 _ _ _ _ W0 Cd) as B7. pose proof (P2 _ _ _ _ Hw Cd) as B8.
  assert (EN : 0 <= e * N) by (apply Rmult_le_pos; lra). assert (E2 : e * e * N <= / 10 * (e * N)) by nra.
  assert (E3 : e * (7 / 4 * e * N) <= 7 / 40 * (e * N)) by nra.
  apply Rabs_le_inv in B1. apply Rabs_le_inv in B2. apply Rabs_le_inv in B3. apply Rabs_le_inv in B4. apply Rabs_le_inv in B5. apply Rabs_le_inv in B6. apply Rabs_le_inv in B7. apply Rabs_le_inv in B8.
  apply Rabs_le. split; lra.
Qed.

(** ** Products of quaternions near unit ones *)
Definition hnear (h k : ham) (e : R) : Prop := Rabs (hw h - hw k) <= e /\ forall i, (i < 3)%nat -> Rabs (hpart h i - hpart k i) <= e.
Lemma hnear_four h k e : hnear h k e <-> Rabs (hw h - hw k) <= e /\ Rabs (hx h - hx k) <= e /\ Rabs (hy h - hy k) <= e /\ Rabs (hz h - hz k) <= e.
Proof.
  split.
  - intros [W P]. repeat split; auto; [apply (P 0%nat); lia|apply (P 1%nat); lia|apply (P 2%nat); lia].
  - intros (W & X & Y & Z). split; auto. intros i Hi. destruct i as [|[|[|]]]; try lia; auto.
Qed.
Lemma hnear_refl h : hnear h h 0.
Proof. apply hnear_four. rewrite !Rminus_diag_eq, Rabs_R0 by auto. lra. Qed.
Lemma hnear_le h k e f : e <= f -> hnear h k e -> hnear h k f.
Proof. intros L N. apply hnear_four in N. apply hnear_four. intuition lra. Qed.
Lemma hnear_trans h k l e f : hnear h k e -> hnear k l f -> hnear h l (e + f).
Proof.
  intros N M. apply hnear_four in N as (A & B & C & D). apply hnear_four in M as (A' & B' & C' & D'). apply hnear_four.
  assert (T : forall x y z, Rabs (x - y) <= e -> Rabs (y - z) <= f -> Rabs (x - z) <= e + f).
  { intros x y z X Y. apply Rabs_le_inv in X. apply Rabs_le_inv in Y. apply Rabs_le. lra. }
  repeat split; eapply T; eauto.
Qed.
Lemma hnear_sym h k e : hnear h k e -> hnear k h e.
Proof. intros N. apply hnear_four in N as (A & B & C & D). apply hnear_four. rewrite (Rabs_minus_sym (hw k)), (Rabs_minus_sym (hx k)), (Rabs_minus_sym (hy k)), (Rabs_minus_sym (hz k)). auto. Qed.

(** a sum of four products, one factor of length at most A, the other of length at most B *)
Lemma four_products a b c d x y z w A B : 0 <= A -> 0 <= B -> a * a + b * b + c * c + d * d <= A * A -> x * x + y * y + z * z + w * w <= B * B -> Rabs (a * x + b * y + c * z + d * w) <= A * B.
Proof.
  intros HA HB U V. apply root_lower; [apply Rabs_pos|apply Rmult_le_pos; auto|].
  replace (Rabs (a * x + b * y + c * z + d * w) * Rabs (a * x + b * y + c * z + d * w)) with ((a * x + b * y + c * z + d * w) * (a * x + b * y + c * z + d * w)) by (unfold Rabs; destruct (Rcase_abs _); ring).
  assert (CS : (a * x + b * y + c * z + d * w) * (a * x + b * y + c * z + d * w) <= (a * a + b * b + c * c + d * d) * (x * x + y * y + z * z + w * w)).
  { pose proof (pow2_ge_0 (a * y - b * x)). pose proof (pow2_ge_0 (a * z - c * x)). pose proof (pow2_ge_0 (a * w - d * x)). pose proof (pow2_ge_0 (b * z - c * y)). pose proof (pow2_ge_0 (b * w - d * y)). pose proof (pow2_ge_0 (c * w - d * z)). lra. }
  eapply Rle_trans; [exact CS|]. replace (A * B * (A * B)) with (A * A * (B * B)) by ring. apply Rmult_le_compat; auto; nra.
Qed.
Lemma hmul_bound h k A B : 0 <= A -> 0 <= B -> hnorm2 h <= A * A -> hnorm2 k <= B * B ->
  Rabs (hw (hmul h k)) <= A * B /\ Rabs (hx (hmul h k)) <= A * B /\ Rabs (hy (hmul h k)) <= A * B /\ Rabs (hz (hmul h k)) <= A * B.
Proof.
  intros HA HB U V. destruct h as [a b c d], k as [x y z w]. unfold hnorm2 in *. cbn [hw hx hy hz] in *. unfold hmul. cbn [hw hx hy hz].
  split; [|split; [|split]].
  - replace (a * x - b * y - c * z - d * w) with (a * x + b * (- y) + c * (- z) + d * (- w)) by ring. apply four_products; auto. lra.
  - replace (a * y + b * x + c * w - d * z) with (a * y + b * x + c * w + d * (- z)) by ring. apply four_products; auto. lra.
  - replace (a * z - b * w + c * x + d * y) with (a * z + b * (- w) + c * x + d * y) by ring. apply four_products; auto. lra.
  - replace (a * w + b * z - c * y + d * x) with (a * w + b * z + c * (- y) + d * x) by ring. apply four_products; auto. lra.
Qed.
Definition hsub (h k : ham) : ham := mkH (hw h - hw k) (hx h - hx k) (hy h - hy k) (hz h - hz k).
Lemma sqr_bound s k : Rabs s <= k -> s * s <= k * k.
Proof. intros Hs. assert (s * s = Rabs s * Rabs s) as -> by (unfold Rabs; destruct (Rcase_abs s); ring). pose proof (Rabs_pos s). apply Rmult_le_compat; auto. Qed.
Lemma hnear_norm h k e : 0 <= e -> hnear h k e -> hnorm2 (hsub h k) <= (2 * e) * (2 * e).
Proof.
  intros He N. apply hnear_four in N as (A & B & C & D). unfold hnorm2, hsub. cbn [hw hx hy hz].
  pose proof (sqr_bound _ _ A). pose proof (sqr_bound _ _ B). pose proof (sqr_bound _ _ C). pose proof (sqr_bound _ _ D). lra.
Qed.
Lemma hmul_near h k P Q a b : 0 <= a -> 0 <= b -> hnorm2 P = 1 -> hnorm2 Q = 1 -> hnear h P a -> hnear k Q b -> hnear (hmul k h) (hmul Q P) (2 * a + 2 * b + 4 * (a * b)).
Proof.
  intros Ha Hb UP UQ N M. pose proof (hnear_norm _ _ _ Ha N) as Nd. pose proof (hnear_norm _ _ _ Hb M) as Md.
  destruct (hmul_bound Q (hsub h P) 1 (2 * a) ltac:(lra) ltac:(lra) ltac:(lra) Nd) as (A1 & A2 & A3 & A4).
  destruct (hmul_bound (hsub k Q) P (2 * b) 1 ltac:(lra) ltac:(lra) Md ltac:(lra)) as (B1 & B2 & B3 & B4).
  destruct (hmul_bound (hsub k Q) (hsub h P) (2 * b) (2 * a) ltac:(lra) ltac:(lra) Md Nd) as (C1 & C2 & C3 & C4).
  apply hnear_four.
  assert (E : hsub (hmul k h) (hmul Q P) = mkH (hw (hmul Q (hsub h P)) + hw (hmul (hsub k Q) P) + hw (hmul (hsub k Q) (hsub h P))) (hx (hmul Q (hsub h P)) + hx (hmul (hsub k Q) P) + hx (hmul (hsub k Q) (hsub h P)))
     (hy (hmul Q (hsub h P)) + hy (hmul (hsub k Q) P) + hy (hmul (hsub k Q) (hsub h P))) (hz (hmul Q (hsub h P)) + hz (hmul (hsub k Q) P) + hz (hmul (hsub k Q) (hsub h P)))).
  { unfold hsub, hmul. cbn [hw hx hy hz]. f_equal; ring. }
  assert (T : forall x y z, Rabs x <= 1 * (2 * a) -> Rabs y <= 2 * b * 1 -> Rabs z <= 2 * b * (2 * a) -> Rabs (x + y + z) <= 2 * a + 2 * b + 4 * (a * b)).
  { intros x y z X Y Z. apply Rabs_le_inv in X. apply Rabs_le_inv in Y. apply Rabs_le_inv in Z. apply Rabs_le. lra. }
  pose proof (f_equal hw E) as E1. pose proof (f_equal hx E) as E2. pose proof (f_equal hy E) as E3. pose proof (f_equal hz E) as E4. clear E.
  unfold hsub at 1 in E1. unfold hsub at 1 in E2. unfold hsub at 1 in E3. unfold hsub at 1 in E4. cbn [hw hx hy hz] in E1, E2, E3, E4. rewrite E1, E2, E3, E4. repeat split; apply T; auto.
Qed.
Lemma norm_near h P a : 0 <= a <= / 100 -> hnorm2 P = 1 -> hnear h P a -> Rabs (hnorm2 h - 1) <= 401 / 100 * a + 4 * (a * a) /\ hnorm2 h <= 11 / 10 * (11 / 10).
Proof.
  intros Ha U N. apply hnear_four in N as (A & B & C & D). rewrite <- U.
  pose proof (perturbed (hw P) (hx P) (hy P) (hz P) (hw h) (hx h) (hy h) (hz h) a ltac:(lra) A B C D) as X. fold (hnorm2 h) (hnorm2 P) in X. rewrite U in *. split; [lra|]. apply Rabs_le_inv in X. nra.
Qed.
Lemma unit_comp P : hnorm2 P = 1 -> Rabs (hw P) <= 1 /\ Rabs (hx P) <= 1 /\ Rabs (hy P) <= 1 /\ Rabs (hz P) <= 1.
Proof. unfold hnorm2. intros U. repeat split; apply Rabs_le; split; nra. Qed.
Lemma normalize_hnear q P a : 0 <= a <= / 100 -> hnorm2 P = 1 -> hnear (q4 q) P a -> hnear (q4 (quat_normalize q)) P (32 / 10 * a).
Proof.
  intros Ha U N. destruct (norm_near _ _ _ Ha U N) as [X _]. rewrite (normalize_q4 eps). cbv zeta. set (n := (hnorm2 (q4 q) + 1) / 2).
  apply Rabs_le_inv in X. assert (Hn : - (203 / 100 * a) <= n - 1 <= 203 / 100 * a) by (unfold n; nra). assert (n98 : 97 / 100 <= n) by lra.
  assert (I1 : n * / n = 1) by (apply Rinv_r; lra). assert (I0 : 0 < / n) by (apply Rinv_0_lt_compat; lra). assert (I2 : / n <= 104 / 100) by nra.
  apply hnear_four in N as (A & B & C & D). destruct (unit_comp P U) as (PA & PB & PC & PD). apply hnear_four. cbn [hw hx hy hz].
  assert (T : forall x p : R, Rabs (x - p) <= a -> Rabs p <= 1 -> Rabs (x / n - p) <= 32 / 10 * a).
  { intros x p Hx Hp. replace (x / n - p) with (((x - p) - p * (n - 1)) * / n) by (field; lra). rewrite Rabs_mult, (Rabs_pos_eq (/ n)) by lra.
    assert (Y : Rabs (x - p - p * (n - 1)) <= 303 / 100 * a).
    { assert (Rabs (p * (n - 1)) <= 1 * (203 / 100 * a)) by (rewrite Rabs_mult; apply Rmult_le_compat; auto using Rabs_pos; apply Rabs_le; lra).
      apply Rabs_le_inv in Hx. apply Rabs_le_inv in H. apply Rabs_le. lra. }
    pose proof (Rabs_pos (x - p - p * (n - 1))). nra. }
  repeat split; apply T; auto.
Qed.
Lemma raw_near p q P Q a b (r := mkQ (qw p * qw q - dot 3 (qv p) (qv q)) (vec_sub 3 (vec_add 3 (vec_scale 3 (qv q) (qw p)) (vec_scale 3 (qv p) (qw q))) (cross3 (qv p) (qv q))) true 0) :
  0 <= (eps : R) -> qdims p -> qdims q -> 0 <= a <= / 25 -> 0 <= b <= / 100 -> hnorm2 P = 1 -> hnorm2 Q = 1 -> hnear (q4 p) P a -> hnear (q4 q) Q b ->
  hnear (q4 r) (hmul Q P) (2 * a + 2 * b + 4 * (a * b) + 22 / 10 * eps).
Proof.
  intros He Dp Dq Ha Hb UP UQ N M.
  assert (Bp : bounded_by 3 (qv p) (11 / 10)). { intros i Hi. destruct N as [_ N]. specialize (N i Hi). rewrite q4_part in N by auto. destruct (unit_comp P UP) as (_ & X & Y & Z). apply Rabs_le_inv in N. destruct i as [|[|[|]]]; try lia; cbn [hpart] in N; [apply Rabs_le_inv in X|apply Rabs_le_inv in Y|apply Rabs_le_inv in Z]; apply Rabs_le; lra. }
  assert (Bq : bounded_by 3 (qv q) (11 / 10)). { intros i Hi. destruct M as [_ M]. specialize (M i Hi). rewrite q4_part in M by auto. destruct (unit_comp Q UQ) as (_ & X & Y & Z). apply Rabs_le_inv in M. destruct i as [|[|[|]]]; try lia; cbn [hpart] in M; [apply Rabs_le_inv in X|apply Rabs_le_inv in Y|apply Rabs_le_inv in Z]; apply Rabs_le; lra. }
  pose proof (dot_error eps 3 (qv p) (qv q) _ _ ltac:(lia) He Dp Dq Bp Bq) as Ed. pose proof (fun i Hi => cross3_error eps (qv p) (qv q) _ _ i He Dp Dq Bp Bq Hi) as Ec.
  rewrite Rmin_left in Ed by lra. rewrite Rmin_left in Ec by lra.
  replace (2 * a + 2 * b + 4 * (a * b) + 22 / 10 * eps) with (22 / 10 * eps + (2 * a + 2 * b + 4 * (a * b))) by ring.
  apply hnear_trans with (hmul (q4 q) (q4 p)); [|apply hmul_near; auto; lra].
  apply hnear_four. unfold r, q4, hmul. cbn [qw qv hw hx hy hz]. unfold vec_sub, vec_add, vec_scale. rewrite ?co_tab by lia. rewrite ?at_tab by lia. toco.
  split; [|split; [|split]].
  - replace (_ - _) with (- (dot 3 (qv p) (qv q) - inner 3 (co (qv p)) (co (qv q)))) by (unfold inner; cbn [Rsum]; ring). rewrite Rabs_Ropp. lra.
  - specialize (Ec 0%nat ltac:(lia)). rewrite <- Rabs_Ropp in Ec. refine (Rle_trans _ _ _ (Req_le _ _ _) (Rle_trans _ _ _ Ec _)); [f_equal; cbn [cross_coord]; ring|lra].
  - specialize (Ec 1%nat ltac:(lia)). rewrite <- Rabs_Ropp in Ec. refine (Rle_trans _ _ _ (Req_le _ _ _) (Rle_trans _ _ _ Ec _)); [f_equal; cbn [cross_coord]; ring|lra].
  - specialize (Ec 2%nat ltac:(lia)). rewrite <- Rabs_Ropp in Ec. refine (Rle_trans _ _ _ (Req_le _ _ _) (Rle_trans _ _ _ Ec _)); [f_equal; cbn [cross_coord]; ring|lra].
Qed.
(** one product, with the renormalisation it may include *)
Lemma mul_near p q P Q a b : 0 <= (eps : R) -> qdims p -> qdims q -> 0 <= a <= / 100 -> 0 <= b <= / 100 -> hnorm2 P = 1 -> hnorm2 Q = 1 -> hnear (q4 p) P a -> hnear (q4 q) Q b ->
  hnear (q4 (quat_mul p q)) (hmul Q P) (7 * a + 2 * b + 3 * eps).
Proof.
  intros He Dp Dq Ha Hb UP UQ N M.
  set (s := mkQ (qw p) (qv p) (qvalid p && qvalid q) (age_add (qage p) (qage q))). set (c := quat_check s).
  assert (C : qdims c /\ hnear (q4 c) P (32 / 10 * a)).
  { unfold c, quat_check. destruct ((N.of_nat max_norm_age <=? qage s)%N && qvalid s).
    - split; [apply normalize_dims|]. apply normalize_hnear; auto.
    - split; [exact Dp|]. apply hnear_le with a; [lra|exact N]. }
  destruct C as [Dc C]. pose proof (raw_near c q P Q (32 / 10 * a) b He Dc Dq ltac:(lra) Hb UP UQ C M) as X. cbv zeta in X.
  apply hnear_le with (2 * (32 / 10 * a) + 2 * b + 4 * (32 / 10 * a * b) + 22 / 10 * eps); [nra|]. exact X.
Qed.
(** a unit left factor: the renormalisation changes nothing *)
Lemma mul_near_unit p q Q b : 0 <= (eps : R) -> qdims p -> qdims q -> 0 <= b <= / 100 -> unit_quat p -> hnorm2 Q = 1 -> hnear (q4 q) Q b ->
  hnear (q4 (quat_mul p q)) (hmul Q (q4 p)) (2 * b + 3 * eps).
Proof.
  intros He Dp Dq Hb UP UQ M. replace (2 * b + 3 * eps) with (7 * 0 + 2 * b + 3 * eps) by ring. apply mul_near; auto; try lra. apply hnear_refl.
Qed.

Lemma assoc_tol p q r : 0 <= (eps : R) <= / 1000 -> qdims p -> qdims q -> qdims r -> unit_quat p -> unit_quat q -> unit_quat r ->
  hnear (q4 (quat_mul (quat_mul p q) r)) (q4 (quat_mul p (quat_mul q r))) (33 * eps).
Proof.
  intros He Dp Dq Dr Up Uq Ur. unfold unit_quat in *.
  pose proof (mul_near p q (q4 p) (q4 q) 0 0 ltac:(lra) Dp Dq ltac:(lra) ltac:(lra) Up Uq (hnear_refl _) (hnear_refl _)) as A.
  pose proof (mul_near q r (q4 q) (q4 r) 0 0 ltac:(lra) Dq Dr ltac:(lra) ltac:(lra) Uq Ur (hnear_refl _) (hnear_refl _)) as B.
  assert (U1 : hnorm2 (hmul (q4 q) (q4 p)) = 1) by (rewrite hmul_norm, Up, Uq; ring).
  assert (U2 : hnorm2 (hmul (q4 r) (q4 q)) = 1) by (rewrite hmul_norm, Ur, Uq; ring).
  pose proof (mul_near (quat_mul p q) r _ (q4 r) (7 * 0 + 2 * 0 + 3 * eps) 0 ltac:(lra) (mul_dims eps p q) Dr ltac:(lra) ltac:(lra) U1 Ur A (hnear_refl _)) as A2.
  pose proof (mul_near p (quat_mul q r) (q4 p) _ 0 (7 * 0 + 2 * 0 + 3 * eps) ltac:(lra) Dp (mul_dims eps q r) ltac:(lra) ltac:(lra) Up U2 (hnear_refl _) B) as B2.
  rewrite hmul_assoc in B2. apply hnear_sym in B2. eapply hnear_le; [|eapply hnear_trans; [exact A2|exact B2]]. lra.
Qed.

(** rotate by a quaternion near a unit one *)
Lemma rotate_near q Q b v : 0 <= (eps : R) -> 0 <= b <= / 100 -> qdims q -> dims 3 v -> hnorm2 Q = 1 -> hnear (q4 q) Q b ->
  dist 3 (co (vec_rotate_q v q)) (spin Q (co v)) <= (32 * b + 17 * eps) * norm 3 (co v).
Proof.
  intros He Hb Dq Dv U N. pose proof (norm_nonneg 3 (co v)) as PN. destruct (norm_near _ _ _ Hb U N) as [_ L].
  assert (B : dist 3 (co (vec_rotate_q v q)) (formula (q4 q) (co v)) <= 17 * eps * norm 3 (co v)).
  { replace (17 * eps * norm 3 (co v)) with (7 / 4 * (68 / 7 * eps * norm 3 (co v))) by field. apply dist_coords; [apply Rmult_le_pos; lra|]. intros i Hi.
    pose proof (rotate_formula q v (11 / 10) i He Dq Dv ltac:(lra) L Hi) as X. eapply Rle_trans; [exact X|]. pose proof (Rmin_r (11 / 10) (norm 3 (co v))) as M.
    assert (8 * eps * (11 / 10) * Rmin (11 / 10) (norm 3 (co v)) <= 8 * eps * (11 / 10) * norm 3 (co v)) by (apply Rmult_le_compat_l; lra). nra. }
  assert (C : dist 3 (formula (q4 q) (co v)) (spin Q (co v)) <= 32 * b * norm 3 (co v)).
  { replace (32 * b * norm 3 (co v)) with (7 / 4 * (128 / 7 * b * norm 3 (co v))) by field. apply dist_coords; [apply Rmult_le_pos; lra|]. intros i Hi. rewrite <- formula_spin by auto.
    destruct N as [Nw Np]. pose proof (formula_perturbed (q4 q) Q (co v) i b ltac:(lra) U Nw Np Hi). nra. }
  pose proof (dist_triangle 3 (co (vec_rotate_q v q)) (formula (q4 q) (co v)) (spin Q (co v))). lra.
Qed.
Lemma compose_tol p q v : 0 <= (eps : R) <= / 1000 -> qdims p -> qdims q -> dims 3 v -> unit_quat p -> unit_quat q ->
  dist 3 (co (vec_rotate_q (vec_rotate_q v p) q)) (co (vec_rotate_q v (quat_mul p q))) <= 150 * eps * norm 3 (co v).
Proof.
  intros He Dp Dq Dv Up Uq. unfold unit_quat in *.
  pose proof (mul_near p q (q4 p) (q4 q) 0 0 ltac:(lra) Dp Dq ltac:(lra) ltac:(lra) Up Uq (hnear_refl _) (hnear_refl _)) as A.
  assert (U1 : hnorm2 (hmul (q4 q) (q4 p)) = 1) by (rewrite hmul_norm, Up, Uq; ring).
  pose proof (rotate_near (quat_mul p q) _ (7 * 0 + 2 * 0 + 3 * eps) v ltac:(lra) ltac:(lra) (mul_dims eps p q) Dv U1 A) as B.
  set (w := vec_rotate_q v p) in *. assert (Dw : dims 3 w) by apply rotate_q_dims.
  pose proof (rotate_tol p v ltac:(lra) Dp Dv Up) as T1. pose proof (rotate_length p v ltac:(lra) Dp Dv Up) as L. fold w in T1, L.
  pose proof (rotate_tol q w ltac:(lra) Dq Dw Uq) as T2. rewrite <- (spin_dist (q4 q)) in T1 by exact Uq.
  rewrite (dist_ext 3 _ _ (spin (q4 q) (co w)) (spin (hmul (q4 q) (q4 p)) (co v))) in T1 by (auto; intros; apply spin_mul).
  pose proof (dist_triangle 3 (co (vec_rotate_q w q)) (spin (q4 q) (co w)) (spin (hmul (q4 q) (q4 p)) (co v))) as Tr.
  pose proof (dist_triangle 3 (co (vec_rotate_q w q)) (spin (hmul (q4 q) (q4 p)) (co v)) (co (vec_rotate_q v (quat_mul p q)))) as Tr2.
  rewrite (dist_comm 3 (spin (hmul (q4 q) (q4 p)) (co v))) in Tr2.
  pose proof (Rmin_r 1 (norm 3 (co v))). pose proof (Rmin_r 1 (norm 3 (co w))). pose proof (norm_nonneg 3 (co v)). set (N := norm 3 (co v)) in *.
  assert (14 * eps * Rmin 1 N <= 14 * eps * N) by (apply Rmult_le_compat_l; lra).
  assert (14 * eps * Rmin 1 (norm 3 (co w)) <= 14 * eps * (N * (1 + 14 * eps))) by (apply Rmult_le_compat_l; lra).
  assert (0 <= eps * N) by (apply Rmult_le_pos; lra). assert (14 * eps * (N * (1 + 14 * eps)) <= 15 * (eps * N)) by nra. lra.
Qed.

(** ** Points *)
Lemma local_parent_tol (x o : point R) q : 0 <= (eps : R) <= / 100 -> qdims q -> unit_quat q -> dims 3 x -> dims 3 o ->
  dist 3 (co (point_to_local_q (point_to_parent_q x o q) o q)) (co x) <= 30 * eps * Rmin 1 (norm 3 (co x)) /\
  dist 3 (co (point_to_parent_q (point_to_local_q x o q) o q)) (co x) <= 30 * eps * Rmin 1 (dist 3 (co x) (co o)).
Proof.
  intros He Dq U Dx Do. split.
  - set (w := vec_sub 3 x (vec_zero 3)). assert (Dw : dims 3 w) by apply dims_tab. assert (Ew : forall i, (i < 3)%nat -> co w i = co x i).
    { intros i Hi. unfold w, vec_sub, vec_zero. rewrite co_tab by auto. rewrite ?at_tab by auto. toco. ring. }
    assert (Es : vec_sub 3 (point_to_parent_q x o q) o = mkC (el (vec_rotate_q w q)) (valid (vec_sub 3 (point_to_parent_q x o q) o))).
    { apply (coords_eq 3); [apply dims_tab|apply rotate_q_dims|reflexivity|]. intros i Hi. unfold point_to_parent_q. fold w. unfold vec_sub, vec_add. rewrite co_tab by auto. rewrite ?at_tab by auto. toco. change (co (mkC (el (vec_rotate_q w q)) _) i) with (co (vec_rotate_q w q) i). ring. }
    pose proof (proj1 (undo_tol q w He Dq Dw U)) as X.
    rewrite (norm_ext 3 (co w) (co x) Ew) in X. rewrite (dist_ext 3 _ _ (co (vec_rotate_q (vec_rotate_q w q) (quat_inverse q))) (co x)) in X by auto.
    eapply Rle_trans; [|exact X]. apply Req_le. apply dist_ext; auto. intros i Hi. unfold point_to_local_q. rewrite Es. unfold vec_add. rewrite co_tab by auto. toco. unfold vec_zero. rewrite co_tab by auto. toco. rewrite Rplus_0_l. reflexivity.
  - set (w := vec_sub 3 x o). assert (Dw : dims 3 w) by apply dims_tab. assert (Ew : forall i, (i < 3)%nat -> co w i = co x i - co o i).
    { intros i Hi. unfold w, vec_sub. rewrite co_tab by auto. toco. reflexivity. }
    assert (Es : vec_sub 3 (point_to_local_q x o q) (vec_zero 3) = mkC (el (vec_rotate_q w (quat_inverse q))) (valid (vec_sub 3 (point_to_local_q x o q) (vec_zero 3)))).
    { apply (coords_eq 3); [apply dims_tab|apply rotate_q_dims|reflexivity|].
      intros i Hi. unfold point_to_local_q. fold w. unfold vec_sub at 1, vec_add, vec_zero. rewrite co_tab by auto. rewrite ?at_tab by auto. toco. change (co (mkC (el (vec_rotate_q w (quat_inverse q))) _) i) with (co (vec_rotate_q w (quat_inverse q)) i). ring. }
    pose proof (proj2 (undo_tol q w He Dq Dw U)) as X.
    assert (Nw : norm 3 (co w) = dist 3 (co x) (co o)) by (unfold dist, dist2; apply norm_ext; exact Ew). rewrite Nw in X.
    eapply Rle_trans; [|exact X]. apply Req_le. unfold dist, dist2, norm2, inner. f_equal. apply Rsum_ext. intros i Hi.
    assert (E : co (point_to_parent_q (point_to_local_q x o q) o q) i = co o i + co (vec_rotate_q (vec_rotate_q w (quat_inverse q)) q) i).
    { unfold point_to_parent_q. rewrite Es. unfold vec_add. rewrite co_tab by auto. toco. reflexivity. }
    rewrite E, (Ew i Hi). ring.
Qed.
End T.
