(** Angle, Parallel and Perpendicular over the reals (any dimension). *)
From Coq Require Import Reals Lra Lia List Bool Psatz ZArith.
From Flocq Require Import Core.Zaux Core.Raux.
From Verif Require Import Base Scalar ConstModel VecModel RSpec RLib VecSpec VecProofs VecProofs4 ConstProofs.
Import ListNotations.
Open Scope R_scope.

Lemma norm_pos n f : 0 < norm2 n f -> 0 < norm n f.
Proof. intros P. apply sqrt_lt_R0. exact P. Qed.
Lemma coord_norm n f i : (i < n)%nat -> Rabs (f i) <= norm n f.
Proof. intros Hi. unfold norm. rewrite <- sqrt_Rsqr_abs. apply sqrt_le_1_alt. apply norm2_coord_le. exact Hi. Qed.
Lemma Rsum_le_const n (f : nat -> R) c : (forall i, (i < n)%nat -> f i <= c) -> Rsum n f <= INR n * c.
Proof.
  intros Hf. induction n as [|n IH]; [simpl; lra|]. rewrite S_INR. cbn [Rsum].
  assert (Rsum n f <= INR n * c) by (apply IH; intros i Hi; apply Hf; lia). pose proof (Hf n ltac:(lia)). lra.
Qed.
Lemma norm2_max n (f : nat -> R) M : 0 <= M -> (forall i, (i < n)%nat -> Rabs (f i) <= M) -> norm2 n f <= INR n * (M * M).
Proof.
  intros HM Hf. apply Rsum_le_const. intros i Hi. pose proof (Hf i Hi) as B. 
  assert (f i * f i = Rabs (f i) * Rabs (f i)) as -> by (unfold Rabs; destruct (Rcase_abs (f i)); ring).
  pose proof (Rabs_pos (f i)). nra.
Qed.
(** Cauchy and Schwarz, the case of equality *)
Lemma collinear n a b : inner n a b * inner n a b = norm2 n a * norm2 n b -> 0 < norm2 n b -> forall i, (i < n)%nat -> a i = inner n a b / norm2 n b * b i.
Proof.
  intros E P i Hi. assert (Z : norm2 n (fun j => norm2 n b * a j - inner n a b * b j) = 0).
  { rewrite norm2_minus, !norm2_scal, inner_scal_l, inner_scal_r. replace (norm2 n b * norm2 n b * norm2 n a) with (norm2 n b * (inner n a b * inner n a b)) by (rewrite E; ring). ring. }
  pose proof (norm2_zero n _ Z i Hi) as Y. cbv beta in Y. apply Rmult_eq_reg_l with (norm2 n b); [|lra]. field_simplify; lra.
Qed.
Lemma inner_multiple n (a b : nat -> R) k : (forall i, (i < n)%nat -> a i = k * b i) -> inner n a b = k * norm2 n b /\ norm2 n a = k * k * norm2 n b.
Proof.
  intros E. split.
  - rewrite (inner_ext n a b (fun i => k * b i) b) by auto. apply inner_scal_l.
  - unfold norm2 at 1. rewrite (inner_ext n a a (fun i => k * b i) (fun i => k * b i)) by auto. apply norm2_scal.
Qed.

Section A.
Context (eps : Epsilon).
Variable n : nat.
Implicit Types a b u v : coords R.

(** ** Angle *)
Lemma clamp_id x : -1 <= x <= 1 -> float_clamp x (- n1)%num n1 = x.
Proof.
  intros Hx. unfold float_clamp, n1. cbn [nleb nopp nofZ Rnum]. destruct (Rle_bool_spec x (- (1))); [lra|]. destruct (Rle_bool_spec 1 x); lra.
Qed.
Lemma cos_ratio a b : 0 < norm2 n (co a) -> 0 < norm2 n (co b) -> -1 <= dot n a b / (norm n (co a) * norm n (co b)) <= 1.
Proof.
  intros Pa Pb. pose proof (norm_pos n _ Pa) as Qa. pose proof (norm_pos n _ Pb) as Qb.
  assert (Q : 0 < norm n (co a) * norm n (co b)) by (apply Rmult_lt_0_compat; auto).
  assert (D : Rabs (dot n a b) <= norm n (co a) * norm n (co b)).
  { destruct (dot_exact_or_zero eps n a b) as [-> | ->]; [apply Rabs_inner_le_norm|rewrite Rabs_R0; lra]. }
  apply Rabs_le_inv in D. split.
  - apply Rmult_le_reg_r with (norm n (co a) * norm n (co b)); auto. unfold Rdiv. rewrite Rmult_assoc, Rinv_l by lra. lra.
  - apply Rmult_le_reg_r with (norm n (co a) * norm n (co b)); auto. unfold Rdiv. rewrite Rmult_assoc, Rinv_l by lra. lra.
Qed.
Lemma angle_value v u : 0 < norm2 n (co v) -> 0 < norm2 n (co u) -> angle n v u = acos (dot n u v / (norm n (co u) * norm n (co v))).
Proof.
  intros Pv Pu. unfold angle. rewrite !sqr_mag_norm2. cbn [ndiv nmul nsqrt nacos Rnum]. rewrite sqrt_mult by lra.
  change (sqrt (norm2 n (co u))) with (norm n (co u)). change (sqrt (norm2 n (co v))) with (norm n (co v)). rewrite clamp_id; [reflexivity|]. apply cos_ratio; auto.
Qed.
Lemma angle_sym v u : angle n v u = angle n u v.
Proof. unfold angle. rewrite (dot_comm eps n u v). cbn [nmul Rnum]. rewrite (Rmult_comm (sqr_mag n u)). reflexivity. Qed.
Lemma angle_cos v u : 0 < norm2 n (co v) -> 0 < norm2 n (co u) -> 0 <= angle n v u <= PI /\ cos (angle n v u) * (norm n (co v) * norm n (co u)) = dot n v u.
Proof.
  intros Pv Pu. rewrite angle_sym, angle_value by auto. split; [apply acos_bound|]. pose proof (cos_ratio v u Pv Pu). rewrite cos_acos by lra.
  pose proof (norm_pos n _ Pv). pose proof (norm_pos n _ Pu). field. split; lra.
Qed.

(** ** Parallel *)
Lemma root_lower x y : 0 <= x -> 0 <= y -> x * x <= y * y -> x <= y.
Proof. intros. destruct (Rle_or_lt x y); auto. nra. Qed.
Lemma thr_norm a b : 0 <= (eps : R) -> (0 < n)%nat -> dims n a -> dims n b -> 0 < norm2 n (co a) -> 0 < norm2 n (co b) ->
  scale_eps_arr (el a) (el b) eps <= 2 * eps * norm n (co a) /\ scale_eps_arr (el a) (el b) eps <= 2 * eps * norm n (co b).
Proof.
  intros He Hn Da Db Pa Pb.
  assert (M : forall v, dims n v -> 0 < norm2 n (co v) -> max_abs (el v) <> 0 /\ max_abs (el v) <= norm n (co v)).
  { intros v Dv Pv. split.
    - intros E. pose proof (zero_inner_l eps n v v Dv E). unfold norm2 in Pv. lra.
    - apply (max_abs_bound eps n); auto; [|apply norm_nonneg]. intros i Hi. apply coord_norm; auto. }
  destruct (M a Da Pa) as [Na La]. destruct (M b Db Pb) as [Nb Lb]. split.
  - apply (arr_bound_l eps n); auto; [|apply norm_nonneg]. intros i Hi. apply coord_norm; auto.
  - rewrite arr_sym. apply (arr_bound_l eps n); auto; [|apply norm_nonneg]. intros i Hi. apply coord_norm; auto.
Qed.
Lemma parallel_fst a b : fst (parallel n a b) = equal (dot n a b * dot n a b) (norm2 n (co a) * norm2 n (co b)) eps.
Proof. unfold parallel. rewrite !sqr_mag_norm2. reflexivity. Qed.
Lemma parallel_snd a b : snd (parallel n a b) = Rlt_bool 0 (dot n a b).
Proof. reflexivity. Qed.

Lemma parallel_sound a b : 0 <= (eps : R) <= / 4 -> eps < norm2 n (co a) * norm2 n (co b) -> fst (parallel n a b) = true ->
  (1 - 2 * eps) * (norm2 n (co a) * norm2 n (co b)) <= inner n (co a) (co b) * inner n (co a) (co b) /\ dot n a b = inner n (co a) (co b).
Proof.
  intros He HP. rewrite parallel_fst. set (P := norm2 n (co a) * norm2 n (co b)) in *. intros E.
  destruct (Req_dec (dot n a b) 0) as [Z|Z].
  - exfalso. rewrite Z, Rmult_0_r in E. apply (equal_R_zero eps) in E; [|auto]. rewrite Rminus_0_l, Rabs_Ropp, Rabs_pos_eq in E by lra. lra.
  - destruct (dot_exact_or_zero eps n a b) as [D|D]; [|contradiction]. split; [|exact D]. rewrite D in *. clear D.
    set (d := inner n (co a) (co b)) in *. assert (D2 : 0 < d * d) by nra.
    apply (equal_R_upper eps) in E; [|lra|lra|lra]. apply Rabs_le_inv in E. rewrite (Rabs_pos_eq P) in E by lra. pose proof (Rmin_r (Rabs (d * d)) P) as M.
    assert (2 * eps * Rmin (Rabs (d * d)) P <= 2 * eps * P) by (apply Rmult_le_compat_l; lra). lra.
Qed.
Lemma parallel_complete a b : 0 <= (eps : R) <= / 4 -> (0 < n)%nat -> dims n a -> dims n b -> eps < norm2 n (co a) * norm2 n (co b) ->
  (1 - eps / 2) * (norm2 n (co a) * norm2 n (co b)) <= inner n (co a) (co b) * inner n (co a) (co b) -> fst (parallel n a b) = true.
Proof.
  intros He Hn Da Db HP HI. pose proof (norm2_nonneg n (co a)) as Na. pose proof (norm2_nonneg n (co b)) as Nb.
  assert (Pa : 0 < norm2 n (co a)). { destruct Na as [|E]; auto. rewrite <- E in HP. lra. }
  assert (Pb : 0 < norm2 n (co b)). { destruct Nb as [|E]; auto. rewrite <- E in HP. lra. }
  destruct (thr_norm a b ltac:(lra) Hn Da Db Pa Pb) as [T1 T2]. pose proof (arr_nonneg eps (el a) (el b) eps ltac:(lra)) as T0.
  set (d := inner n (co a) (co b)) in *. set (t := scale_eps_arr (el a) (el b) eps) in *.
  pose proof (cauchy_schwarz n (co a) (co b)) as CS. fold d in CS.
  pose proof (norm_sqr n (co a)) as Sa. pose proof (norm_sqr n (co b)) as Sb. set (x := norm n (co a)) in *. set (y := norm n (co b)) in *.
  assert (Qx : 0 < x) by (apply norm_pos; auto). assert (Qy : 0 < y) by (apply norm_pos; auto). rewrite <- Sa, <- Sb in *.
  set (p := x * y). assert (Pp : 0 < p) by (apply Rmult_lt_0_compat; auto). assert (P2 : x * x * (y * y) = p * p) by (unfold p; ring). rewrite P2 in *.
  assert (TT : t * t <= 4 * (eps * eps) * p).
  { assert (t * t <= (2 * eps * x) * (2 * eps * y)) by (apply Rmult_le_compat; auto). unfold p. lra. }
  assert (Ep : eps <= p). { apply root_lower; [lra|lra|]. assert (eps * eps <= eps) by nra. lra. }
  assert (TP : t <= Rabs d).
  { apply root_lower; [auto|apply Rabs_pos|]. assert (Rabs d * Rabs d = d * d) as -> by (unfold Rabs; destruct (Rcase_abs d); ring).
    assert (eps * eps * p <= / 4 * (p * p)).
    { replace (eps * eps * p) with (eps * (eps * p)) by ring. replace (/ 4 * (p * p)) with (/ 4 * (p * p)) by ring. assert (0 <= eps * p) by (apply Rmult_le_pos; lra). assert (eps * p <= p * p) by (apply Rmult_le_compat_r; lra). assert (eps * (eps * p) <= / 4 * (eps * p)) by (apply Rmult_le_compat_r; lra). lra. }
    assert (eps * (eps * p) * 4 <= 7 / 8 * (p * p)).
    { assert (0 <= eps * p) by (apply Rmult_le_pos; lra). destruct (Rle_or_lt (4 * (eps * eps)) (7 / 8 * p)) as [Q|Q]; [nra|].
      exfalso. assert (p * p <= 4 * (eps * eps) * p * (8 / 7)) by nra. assert (eps < 4 * (eps * eps) * p * (8/7)) by lra. assert (p < 32 / 7 * (eps * eps)) by lra. assert (eps * eps <= / 4 * eps) by nra. assert (p < 8 / 7 * eps) by lra. assert (p * p < (8/7 * eps) * (8 / 7 * eps)) by nra. nra. }
    assert ((1 - eps / 2) * (p * p) >= 7 / 8 * (p * p)) by nra. lra. }
  assert (D : dot n a b = d) by (rewrite dot_def; fold d t; rewrite Rle_bool_true; auto).
  rewrite parallel_fst, D, <- Sa, <- Sb, P2. fold x y p.
  assert (H2 : 7 / 8 * (p * p) <= d * d) by nra.
  apply (equal_R_lower eps); [lra|nra|nra|]. rewrite (Rabs_pos_eq (d * d)), (Rabs_pos_eq (p * p)) by nra. rewrite Rmin_left by lra.
  rewrite Rabs_left1 by lra. nra.
Qed.
Lemma parallel_exact (E0 : (eps : R) = 0) a b : (0 < n)%nat -> dims n a -> dims n b ->
  (fst (parallel n a b) = true <-> inner n (co a) (co b) * inner n (co a) (co b) = norm2 n (co a) * norm2 n (co b)) /\
  (snd (parallel n a b) = true <-> 0 < inner n (co a) (co b)).
Proof.
  intros Hn Da Db.
  assert (D : dot n a b = inner n (co a) (co b)).
  { rewrite dot_def. unfold scale_eps_arr. rewrite E0, scale_eps_eps0. rewrite Rle_bool_true; [reflexivity|apply Rabs_pos]. }
  rewrite parallel_fst, parallel_snd, D, E0. split; [apply equal_R_exact0|apply Rltb_iff].
Qed.

(** ** Perpendicular *)
Lemma frexp_twice x : 0 < x -> x < bpow radix2 (Rfrexp x) <= 2 * x.
Proof.
  intros Hx. destruct (Rfrexp_bounds x ltac:(lra)) as [A B]. rewrite Rabs_pos_eq in A, B by lra. split; [exact B|].
  replace (Rfrexp x - 1)%Z with (Rfrexp x + -1)%Z in A by ring. rewrite bpow_plus in A. change (bpow radix2 (-1)) with (/ 2) in A. lra.
Qed.
Lemma perp_thr a b : let A := max_abs (el a) in let B := max_abs (el b) in 0 < A -> 0 < B -> 0 < (eps : R) ->
  exists t, perpendicular n a b = Rlt_bool (Rabs (dot n a b)) t /\ eps * (A * B) < t <= 4 * eps * (A * B).
Proof.
  intros A B PA PB He. exists (eps * bpow radix2 (Rfrexp A + Rfrexp B)). split; [reflexivity|].
  rewrite bpow_plus. destruct (frexp_twice A PA) as [A1 A2]. destruct (frexp_twice B PB) as [B1 B2].
  set (X := bpow radix2 (Rfrexp A)) in *. set (Y := bpow radix2 (Rfrexp B)) in *. assert (A * B < X * Y) by nra. assert (X * Y <= 4 * (A * B)) by nra.
  split; [apply Rmult_lt_compat_l; lra|]. replace (4 * eps * (A * B)) with (eps * (4 * (A * B))) by ring. apply Rmult_le_compat_l; lra.
Qed.
Lemma maxabs_norm v : dims n v -> 0 < norm2 n (co v) -> 0 < max_abs (el v) <= norm n (co v) /\ norm2 n (co v) <= INR n * (max_abs (el v) * max_abs (el v)).
Proof.
  intros Dv Pv. pose proof (max_abs_nonneg eps (el v)) as N0. split; [split|].
  - destruct N0 as [|E]; auto. pose proof (zero_inner_l eps n v v Dv (eq_sym E)). unfold norm2 in Pv. lra.
  - apply (max_abs_bound eps n); auto; [|apply norm_nonneg]. intros i Hi. apply coord_norm; auto.
  - apply norm2_max; auto. intros i Hi. apply (co_max_abs eps n); auto.
Qed.
Lemma perp_sound a b : (0 < n)%nat -> 0 < (eps : R) -> dims n a -> dims n b -> 0 < norm2 n (co a) -> 0 < norm2 n (co b) ->
  perpendicular n a b = true -> / 2 <= norm n (co a) \/ / 2 <= norm n (co b) ->
  Rabs (inner n (co a) (co b)) <= 4 * eps * (norm n (co a) * norm n (co b)).
Proof.
  intros Hn He Da Db Pa Pb E L. destruct (maxabs_norm a Da Pa) as [Ma _]. destruct (maxabs_norm b Db Pb) as [Mb _].
  destruct (perp_thr a b (proj1 Ma) (proj1 Mb) He) as (t & Et & _ & Ht). rewrite Et in E. apply Rltb_iff in E.
  set (x := norm n (co a)) in *. set (y := norm n (co b)) in *. set (A := max_abs (el a)) in *. set (B := max_abs (el b)) in *.
  assert (AB : A * B <= x * y) by (apply Rmult_le_compat; lra).
  assert (T : t <= 4 * eps * (x * y)) by (eapply Rle_trans; [exact Ht|]; apply Rmult_le_compat_l; lra).
  rewrite dot_def in E. destruct (thr_norm a b ltac:(lra) Hn Da Db Pa Pb) as [T1 T2]. fold x y in T1, T2.
  set (d := inner n (co a) (co b)) in *. destruct (Rle_bool_spec (scale_eps_arr (el a) (el b) eps) (Rabs d)) as [G|G]; [lra|].
  assert (2 * eps * x <= 4 * eps * (x * y) \/ 2 * eps * y <= 4 * eps * (x * y)).
  { destruct L as [L|L]; [right|left].
    - replace (4 * eps * (x * y)) with (2 * eps * y * (2 * x)) by ring. rewrite <- (Rmult_1_r (2 * eps * y)) at 1. apply Rmult_le_compat_l; [|lra]. apply Rmult_le_pos; lra.
    - replace (4 * eps * (x * y)) with (2 * eps * x * (2 * y)) by ring. rewrite <- (Rmult_1_r (2 * eps * x)) at 1. apply Rmult_le_compat_l; [|lra]. apply Rmult_le_pos; lra. }
  lra.
Qed.
Lemma perp_complete a b : (0 < n)%nat -> 0 < (eps : R) -> dims n a -> dims n b -> 0 < norm2 n (co a) -> 0 < norm2 n (co b) ->
  INR n * Rabs (inner n (co a) (co b)) <= eps * (norm n (co a) * norm n (co b)) -> perpendicular n a b = true.
Proof.
  intros Hn He Da Db Pa Pb HI. destruct (maxabs_norm a Da Pa) as [Ma Ca]. destruct (maxabs_norm b Db Pb) as [Mb Cb].
  destruct (perp_thr a b (proj1 Ma) (proj1 Mb) He) as (t & Et & Ht & _). rewrite Et. apply Rltb_iff.
  pose proof (norm_sqr n (co a)) as Sa. pose proof (norm_sqr n (co b)) as Sb. rewrite <- Sa in Ca. rewrite <- Sb in Cb. clear Sa Sb Pa Pb.
  set (x := norm n (co a)) in *. set (y := norm n (co b)) in *. set (A := max_abs (el a)) in *. set (B := max_abs (el b)) in *. set (d := inner n (co a) (co b)) in *.
  assert (N : 1 <= INR n) by (change 1 with (INR 1); apply le_INR; lia).
  assert (XY : x * y <= INR n * (A * B)).
  { apply root_lower; [apply Rmult_le_pos; lra| |].
    - apply Rmult_le_pos; [lra|]. apply Rmult_le_pos; lra.
    - replace (x * y * (x * y)) with (x * x * (y * y)) by ring. replace (INR n * (A * B) * (INR n * (A * B))) with (INR n * (A * A) * (INR n * (B * B))) by ring. apply Rmult_le_compat; auto; nra. }
  assert (Dd : Rabs d <= eps * (A * B)).
  { apply Rmult_le_reg_l with (INR n); [lra|]. eapply Rle_trans; [exact HI|]. replace (INR n * (eps * (A * B))) with (eps * (INR n * (A * B))) by ring. apply Rmult_le_compat_l; lra. }
  assert (Rabs (dot n a b) <= Rabs d). { destruct (dot_exact_or_zero eps n a b) as [-> | ->]; [apply Rle_refl|rewrite Rabs_R0; apply Rabs_pos]. }
  lra.
Qed.
Lemma perp_zero a b : 0 < (eps : R) -> inner n (co a) (co b) = 0 -> perpendicular n a b = true.
Proof.
  intros He E. unfold perpendicular. assert (dot n a b = 0) as -> by (destruct (dot_exact_or_zero eps n a b); congruence). cbn [nltb nabs nldexp neps nfrexp Rnum].
  rewrite Rabs_R0. apply Rltb_iff. apply Rmult_lt_0_compat; [exact He|apply bpow_gt_0].
Qed.
End A.
