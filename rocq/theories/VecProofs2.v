(** Proofs about cross products, sloppyMag, polar coordinates (dimensions 2 and 3). *)
From Coq Require Import Reals Lra Lia List Bool Psatz ZArith.
From Flocq Require Import Core.Zaux Core.Raux.
From Verif Require Import Base Scalar ConstModel VecModel RSpec RLib VecSpec VecProofs.
Import ListNotations.
Open Scope R_scope.

Lemma coords2 {T} (v : coords T) : dims 2 v -> exists x y b, v = mkC [x; y] b.
Proof.
  destruct v as [[|x [|y [|]]] b]; unfold dims; simpl; intros H; try discriminate. eauto.
Qed.
Lemma coords3 {T} (v : coords T) : dims 3 v -> exists x y z b, v = mkC [x; y; z] b.
Proof.
  destruct v as [[|x [|y [|z [|]]]] b]; unfold dims; simpl; intros H; try discriminate. eauto 6.
Qed.

Section C3.
Context (eps : Epsilon).

Definition rclamp (d x : R) : R := if Rlt_bool (Rabs x) d then 0 else x.

Lemma cross3_co (a b : coords R) i : (i < 3)%nat ->
  co (cross3 a b) i = rclamp (scale_eps_arr (el a) (el b) eps) (cross_coord (co a) (co b) i).
Proof.
  intros Hi. destruct i as [|[|[|]]]; try lia; unfold cross3, co; cbn [el nth]; toco; unfold rclamp, cross_coord.
  - replace (co b 1 * co a 2) with (co a 2 * co b 1) by ring. reflexivity.
  - replace (co b 2 * co a 0) with (co a 0 * co b 2) by ring. reflexivity.
  - replace (co b 0 * co a 1) with (co a 1 * co b 0) by ring. reflexivity.
Qed.

Lemma rclamp_opp d x : rclamp d (- x) = - rclamp d x.
Proof. unfold rclamp. rewrite Rabs_Ropp. destruct (Rlt_bool _ _); ring. Qed.
Lemma cross_coord_anti a b i : cross_coord b a i = - cross_coord a b i.
Proof. destruct i as [|[|]]; simpl; ring. Qed.

Lemma cross3_dims (a b : coords R) : dims 3 (cross3 a b).
Proof. reflexivity. Qed.

Lemma cross3_anti (a b : coords R) : cross3 a b = vec_neg 3 (cross3 b a).
Proof.
  apply (coords_eq 3); [first [apply cross3_dims|apply dims_tab]|first [apply cross3_dims|apply dims_tab]| |].
  - simpl. apply andb_comm.
  - intros i Hi. unfold vec_neg. rewrite co_tab by auto. toco.
    rewrite !cross3_co, (cross_coord_anti (co a) (co b)), rclamp_opp by auto.
    rewrite (arr_sym eps (el b) (el a)). ring.
Qed.

Lemma cross_zero_l (a b : coords R) i : dims 3 a -> max_abs (el a) = 0 -> cross_coord (co a) (co b) i = 0.
Proof.
  intros D E. assert (Z : forall j, (j < 3)%nat -> co a j = 0).
  { intros j Hj. apply (proj1 (max_abs_zero eps (el a)) E). apply nth_In. rewrite D; auto. }
  destruct i as [|[|]]; simpl; rewrite !Z by lia; ring.
Qed.

Lemma cross3_error (a b : coords R) A B i : 0 <= (eps : R) -> dims 3 a -> dims 3 b ->
  bounded_by 3 a A -> bounded_by 3 b B -> (i < 3)%nat ->
  Rabs (co (cross3 a b) i - cross_coord (co a) (co b) i) <= 2 * eps * Rmin A B.
Proof.
  intros He Da Db HA HB Hi.
  pose proof (bounded_nonneg 3 a A ltac:(lia) HA) as PA. pose proof (bounded_nonneg 3 b B ltac:(lia) HB) as PB.
  assert (PM : 0 <= Rmin A B) by (apply Rmin_glb; auto).
  rewrite cross3_co by auto.
  assert (Z : cross_coord (co a) (co b) i = 0 ->
    Rabs (rclamp (scale_eps_arr (el a) (el b) eps) (cross_coord (co a) (co b) i) - cross_coord (co a) (co b) i) <= 2 * eps * Rmin A B).
  { intros ->. unfold rclamp. destruct (Rlt_bool _ _); rewrite Rminus_0_r, Rabs_R0; apply Rmult_le_pos; lra. }
  destruct (Req_dec (max_abs (el a)) 0) as [Ea|Ea]. { apply Z, cross_zero_l; auto. }
  destruct (Req_dec (max_abs (el b)) 0) as [Eb|Eb].
  { apply Z. rewrite cross_coord_anti, cross_zero_l by auto. ring. }
  unfold rclamp. destruct (Rlt_bool_spec (Rabs (cross_coord (co a) (co b) i)) (scale_eps_arr (el a) (el b) eps)) as [L|L].
  - rewrite Rminus_0_l, Rabs_Ropp. eapply Rle_trans; [apply Rlt_le, L|].
    unfold Rmin. destruct (Rle_dec A B); [|rewrite arr_sym]; eapply arr_bound_l; eauto.
  - rewrite Rminus_diag_eq, Rabs_R0 by auto. apply Rmult_le_pos; lra.
Qed.

(** 2D cross product: what is computed *)
Definition cross2_exact (a b : coords R) : R := co a 0 * co b 1 - co a 1 * co b 0.

Lemma cross2_def (a b : coords R) :
  cross2 a b = if Rle_bool (scale_eps_arr (el a) (el b) eps) (cross2_exact a b) then cross2_exact a b else 0.
Proof.
  unfold cross2, cross2_exact. toco. cbn [nleb Rnum].
  replace (co b 0 * co a 1) with (co a 1 * co b 0) by ring. reflexivity.
Qed.
Lemma cross2_nonneg (a b : coords R) : 0 <= (eps : R) -> 0 <= cross2 a b.
Proof.
  intros He. rewrite cross2_def. destruct (Rle_bool_spec (scale_eps_arr (el a) (el b) eps) (cross2_exact a b)); [|lra].
  pose proof (arr_nonneg eps (el a) (el b) eps He). lra.
Qed.
Lemma cross2_error (a b : coords R) A B : 0 <= (eps : R) -> dims 2 a -> dims 2 b ->
  bounded_by 2 a A -> bounded_by 2 b B ->
  Rabs (cross2 a b - Rmax 0 (cross2_exact a b)) <= 2 * eps * Rmin A B.
Proof.
  intros He Da Db HA HB.
  pose proof (bounded_nonneg 2 a A ltac:(lia) HA) as PA. pose proof (bounded_nonneg 2 b B ltac:(lia) HB) as PB.
  assert (PM : 0 <= Rmin A B) by (apply Rmin_glb; auto).
  assert (PP : 0 <= 2 * eps * Rmin A B) by (apply Rmult_le_pos; lra).
  assert (Zl : forall a b, dims 2 a -> max_abs (el a) = 0 -> cross2_exact a b = 0 /\ cross2_exact b a = 0).
  { intros a' b' D E. assert (Z : forall j, (j < 2)%nat -> co a' j = 0).
    { intros j Hj. apply (proj1 (max_abs_zero eps (el a')) E). apply nth_In. rewrite D; auto. }
    unfold cross2_exact. rewrite !Z by lia. split; ring. }
  rewrite cross2_def. pose proof (arr_nonneg eps (el a) (el b) eps He) as Pd.
  destruct (Rle_bool_spec (scale_eps_arr (el a) (el b) eps) (cross2_exact a b)) as [L|L].
  - rewrite Rmax_right by lra. rewrite Rminus_diag_eq, Rabs_R0 by auto. auto.
  - destruct (Rle_or_lt (cross2_exact a b) 0) as [N|P].
    + rewrite Rmax_left by lra. rewrite Rminus_0_r, Rabs_R0. auto.
    + rewrite Rmax_right by lra. rewrite Rminus_0_l, Rabs_Ropp, Rabs_pos_eq by lra.
      destruct (Req_dec (max_abs (el a)) 0) as [Ea|Ea]. { destruct (Zl a b Da Ea); lra. }
      destruct (Req_dec (max_abs (el b)) 0) as [Eb|Eb]. { destruct (Zl b a Db Eb); lra. }
      eapply Rle_trans; [apply Rlt_le, L|].
      unfold Rmin. destruct (Rle_dec A B); [|rewrite arr_sym]; eapply arr_bound_l; eauto.
Qed.
End C3.

(** Clamp disabled *)
Lemma cross3_co0 (a b : coords R) i : (i < 3)%nat ->
  co (@cross3 R (Rnum 0) a b) i = cross_coord (co a) (co b) i.
Proof.
  intros Hi. rewrite cross3_co by auto. unfold rclamp, scale_eps_arr. rewrite scale_eps_eps0.
  rewrite Rlt_bool_false; auto. apply Rabs_pos.
Qed.

Ltac v3 := intros; unfold norm2, inner; cbn [Rsum]; rewrite ?cross3_co0 by lia; unfold vec_add, vec_scale;
  rewrite ?co_tab by lia; toco; cbn [cross_coord]; rewrite ?cross3_co0 by lia; cbn [cross_coord];
  rewrite ?co_tab by lia; toco; try ring.

Lemma cross3_add_l (a b c : coords R) :
  @cross3 R (Rnum 0) (vec_add 3 (H := Rnum 0) a b) c = vec_add 3 (H := Rnum 0) (@cross3 R (Rnum 0) a c) (@cross3 R (Rnum 0) b c).
Proof.
  apply (coords_eq 3); [first [apply cross3_dims|apply dims_tab]|first [apply cross3_dims|apply dims_tab]| |].
  - simpl. destruct (valid a), (valid b), (valid c); reflexivity.
  - intros i Hi. rewrite cross3_co0 by auto. unfold vec_add. rewrite co_tab by auto. toco.
    rewrite !cross3_co0 by auto. destruct i as [|[|[|]]]; try lia; cbn [cross_coord]; rewrite !co_tab by lia; toco; ring.
Qed.
Lemma cross3_scale_l (a c : coords R) k :
  @cross3 R (Rnum 0) (vec_scale 3 (H := Rnum 0) a k) c = vec_scale 3 (H := Rnum 0) (@cross3 R (Rnum 0) a c) k.
Proof.
  apply (coords_eq 3); [first [apply cross3_dims|apply dims_tab]|first [apply cross3_dims|apply dims_tab]| |].
  reflexivity. intros i Hi. rewrite cross3_co0 by auto. unfold vec_scale. rewrite co_tab by auto. toco.
  rewrite !cross3_co0 by auto. destruct i as [|[|[|]]]; try lia; cbn [cross_coord]; rewrite !co_tab by lia; toco; ring.
Qed.
Lemma cross3_orth_l (a b : coords R) : inner 3 (co a) (co (@cross3 R (Rnum 0) a b)) = 0.
Proof. v3. Qed.
Lemma cross3_orth_r (a b : coords R) : inner 3 (co b) (co (@cross3 R (Rnum 0) a b)) = 0.
Proof. v3. Qed.
Lemma cross3_lagrange (a b : coords R) :
  norm2 3 (co (@cross3 R (Rnum 0) a b)) + inner 3 (co a) (co b) * inner 3 (co a) (co b) = norm2 3 (co a) * norm2 3 (co b).
Proof. v3. Qed.

(** ** sloppyMag *)
Lemma sqrt2_bounds : 1.4142135623730 < sqrt 2 < 1.4142135623731.
Proof.
  split.
  - rewrite <- (sqrt_square 1.4142135623730) by lra. apply sqrt_lt_1_alt. lra.
  - rewrite <- (sqrt_square 1.4142135623731) by lra. apply sqrt_lt_1_alt. lra.
Qed.
Lemma sqrt3_bounds : 1.7320508075688 < sqrt 3 < 1.7320508075689.
Proof.
  split.
  - rewrite <- (sqrt_square 1.7320508075688) by lra. apply sqrt_lt_1_alt. lra.
  - rewrite <- (sqrt_square 1.7320508075689) by lra. apply sqrt_lt_1_alt. lra.
Qed.

(** case analysis of the 2D formula: f(big, small) *)
Definition f2 (x y : R) : R := x + (sqrt 2 - 1) * y.

Lemma f2_bounds x y : 0 <= y <= x -> x * x + y * y <= f2 x y * f2 x y <= (4 - 2 * sqrt 2) * (x * x + y * y).
Proof.
  intros H. pose proof (sqrt_sqrt 2 ltac:(lra)) as S. pose proof sqrt2_bounds as B. unfold f2. set (s := sqrt 2) in *.
  split.
  - assert ((x + (s - 1) * y) * (x + (s - 1) * y) - (x * x + y * y) = 2 * (s - 1) * y * (x - y) + (s * s - 2) * (y * y)) by ring.
    rewrite S in H0. assert (0 <= 2 * (s - 1) * y * (x - y)). { apply Rmult_le_pos; [apply Rmult_le_pos|]; lra. } lra.
  - assert ((4 - 2 * s) * (x * x + y * y) - (x + (s - 1) * y) * (x + (s - 1) * y)
            = ((s - 1) * x - y) * ((s - 1) * x - y) + (2 - s * s) * (x * x + y * y)) by ring.
    rewrite S in H0. pose proof (Rle_0_sqr ((s - 1) * x - y)). unfold Rsqr in H1. lra.
Qed.

Section Sloppy.
Context (eps : Epsilon).

Lemma sloppy_mag2_f2 (v : coords R) :
  sloppy_mag2 v = f2 (Rmax (Rabs (co v 0)) (Rabs (co v 1))) (Rmin (Rabs (co v 0)) (Rabs (co v 1))).
Proof.
  unfold sloppy_mag2, f2. cbn [nltb nsqrt2 Rnum]. toco.
  pose proof (Rabs_pos (co v 0)). pose proof (Rabs_pos (co v 1)).
  destruct (Rlt_bool_spec (Rabs (co v 1)) (Rabs (co v 0))).
  - rewrite Rmax_left, Rmin_right by lra. ring.
  - rewrite Rmax_right, Rmin_left by lra. destruct (Rlt_bool_spec 0 (Rabs (co v 1))).
    + ring.
    + replace (Rabs (co v 1)) with 0 by lra. replace (Rabs (co v 0)) with 0 by lra. ring.
Qed.

Lemma norm2_2_abs (v : coords R) :
  let x := Rmax (Rabs (co v 0)) (Rabs (co v 1)) in let y := Rmin (Rabs (co v 0)) (Rabs (co v 1)) in
  norm2 2 (co v) = x * x + y * y.
Proof.
  cbn zeta. unfold norm2, inner. cbn [Rsum].
  assert (E : forall a, a * a = Rabs a * Rabs a) by (intros a; unfold Rabs; destruct (Rcase_abs a); ring).
  rewrite (E (co v 0)), (E (co v 1)). unfold Rmax, Rmin. destruct (Rle_dec _ _); ring.
Qed.

Lemma f2_pos x y : 0 <= y -> 0 <= x -> 0 <= f2 x y.
Proof. intros. unfold f2. pose proof sqrt2_bounds. assert (0 <= (sqrt 2 - 1) * y) by (apply Rmult_le_pos; lra). lra. Qed.

Lemma sloppy2_bracket (v : coords R) : mag 2 v <= sloppy_mag2 v <= sloppy_max2 * mag 2 v.
Proof.
  rewrite mag_norm, sloppy_mag2_f2. unfold norm. rewrite norm2_2_abs. cbn zeta.
  set (x := Rmax _ _). set (y := Rmin _ _).
  assert (Hy : 0 <= y) by (unfold y; apply Rmin_glb; apply Rabs_pos).
  assert (Hxy : y <= x) by (unfold x, y, Rmax, Rmin; destruct (Rle_dec _ _); lra).
  destruct (f2_bounds x y) as [L U]; [lra|].
  pose proof (f2_pos x y Hy ltac:(lra)) as P.
  assert (N0 : 0 <= x * x + y * y) by nra.
  split.
  - apply sqrt_le_iff; auto.
  - unfold sloppy_max2. cbn [ndiv nofZ nmul Rnum].
    rewrite <- (sqrt_square (f2 x y)) by auto.
    rewrite <- (sqrt_square (9079764 / 8388608)) by lra. rewrite <- sqrt_mult by lra.
    apply sqrt_le_1_alt. eapply Rle_trans; [exact U|]. apply Rmult_le_compat_r; auto.
    pose proof sqrt2_bounds. lra.
Qed.

(** 3D: f(big, a, b) with the big component scaled out *)
Definition f3 (x y : R) : R := 1 + (sqrt 2 - 1) * (x + y) + (sqrt 3 + 1 - 2 * sqrt 2) * x * y.

Lemma f3_sp x y : f3 x y = 1 + (sqrt 2 - 1) * (x + y) + (sqrt 3 + 1 - 2 * sqrt 2) * (x * y).
Proof. unfold f3. ring. Qed.

Lemma f3_lower x y : 0 <= x <= 1 -> 0 <= y <= 1 -> 1 + x * x + y * y <= f3 x y * f3 x y.
Proof.
  intros Hx Hy. pose proof (sqrt_sqrt 2 ltac:(lra)) as S2. pose proof (sqrt_sqrt 3 ltac:(lra)) as S3.
  pose proof sqrt2_bounds as B2. pose proof sqrt3_bounds as B3.
  rewrite f3_sp. set (r2 := sqrt 2) in *. set (r3 := sqrt 3) in *.
  set (p := r2 - 1) in *. set (q := r3 + 1 - 2 * r2) in *.
  assert (Hq : -0.0964 <= q <= -0.0963) by (unfold q; lra).
  assert (Hp : 0.4142 <= p <= 0.4143) by (unfold p; lra).
  set (s := x + y). set (P := x * y).
  assert (HP : 0 <= P) by (unfold P; apply Rmult_le_pos; lra).
  assert (HP1 : P <= 1) by (unfold P; nra).
  assert (Hs : 0 <= s <= 2) by (unfold s; lra).
  replace (1 + x * x + y * y) with (1 + s * s - 2 * P) by (unfold s, P; ring).
  assert (Fb : forall Q, 0 <= Q -> 1 + p * s + q * Q <= 2) by (intros; nra).
  assert (Step : forall P0, 0 <= P0 <= P ->
    1 + s * s - 2 * P0 <= (1 + p * s + q * P0) * (1 + p * s + q * P0) ->
    1 + s * s - 2 * P <= (1 + p * s + q * P) * (1 + p * s + q * P)).
  { intros P0 H0 H. pose proof (Fb P HP) as F1. pose proof (Fb P0 ltac:(lra)) as F2.
    assert (E : (1 + p * s + q * P) * (1 + p * s + q * P) - (1 + s * s - 2 * P)
      - ((1 + p * s + q * P0) * (1 + p * s + q * P0) - (1 + s * s - 2 * P0))
      = (P - P0) * (q * ((1 + p * s + q * P) + (1 + p * s + q * P0)) + 2)) by ring.
    assert (0 <= (P - P0) * (q * ((1 + p * s + q * P) + (1 + p * s + q * P0)) + 2)).
    { apply Rmult_le_pos; [lra|]. nra. }
    lra. }
  destruct (Rle_or_lt s 1) as [Hs1|Hs1].
  - apply (Step 0); [lra|].
    assert (E : (1 + p * s + q * 0) * (1 + p * s + q * 0) - (1 + s * s - 2 * 0) = 2 * p * (s * (1 - s)) + (p * p + 2 * p - 1) * (s * s)) by ring.
    assert (p * p + 2 * p - 1 = 0) as Z by (unfold p; ring_simplify; replace (r2 ^ 2) with (r2 * r2) by ring; rewrite S2; ring).
    rewrite Z in E. assert (0 <= s * (1 - s)) by (apply Rmult_le_pos; lra).
    assert (0 <= 2 * p * (s * (1 - s))) by (apply Rmult_le_pos; lra). lra.
  - apply (Step (s - 1)).
    { split; [lra|]. assert (0 <= (1 - x) * (1 - y)) by (apply Rmult_le_pos; lra). unfold s, P. lra. }
    set (t := s - 1). assert (Ht : 0 <= t <= 1) by (unfold t; lra).
    replace s with (1 + t) by (unfold t; ring).
    assert (E1 : 1 + p * (1 + t) + q * t = r2 + (r3 - r2) * t) by (unfold p, q; ring).
    rewrite E1.
    assert (E : (r2 + (r3 - r2) * t) * (r2 + (r3 - r2) * t) - (1 + (1 + t) * (1 + t) - 2 * t)
      = (2 * (r2 * r3) - 2 * (r2 * r2)) * (t * (1 - t)) + (r2 * r2 - 2) + (r3 * r3 - r2 * r2 - 1) * (t * t)) by ring.
    rewrite S2, S3 in E.
    assert (2 <= r2 * r3) by nra.
    assert (0 <= t * (1 - t)) by (apply Rmult_le_pos; lra).
    assert (0 <= (2 * (r2 * r3) - 2 * 2) * (t * (1 - t))) by (apply Rmult_le_pos; lra). lra.
Qed.

(** A proved upper constant, about 1e-8 above the true maximum 1.14593471930... *)
Definition slop3 : R := 114593473 / 100000000.

Lemma f3_upper_diag s : 0 <= s <= 2 ->
  1 + (sqrt 2 - 1) * s + (sqrt 3 + 1 - 2 * sqrt 2) * (s * s / 4) <= slop3 * sqrt (1 + s * s / 2).
Proof.
  intros Hs. pose proof sqrt2_bounds as B2. pose proof sqrt3_bounds as B3.
  set (r2 := sqrt 2) in *. set (r3 := sqrt 3) in *.
  pose (K := 1.0134254375). pose (s0 := 0.746464067).
  (* Cauchy-Schwarz against (1, s0) *)
  assert (C : K * (1 + s0 * s / 2) <= slop3 * sqrt (1 + s * s / 2)).
  { assert (0 <= 1 + s * s / 2) by nra.
    assert (K1 : K * sqrt (1 + s0 * s0 / 2) <= slop3).
    { assert (sqrt (1 + s0 * s0 / 2) <= slop3 / K).
      { apply sqrt_le_iff; unfold s0, slop3, K; lra. }
      replace slop3 with (K * (slop3 / K)) by (unfold K; field; lra). apply Rmult_le_compat_l; auto. unfold K; lra. }
    assert (K2 : 1 + s0 * s / 2 <= sqrt (1 + s0 * s0 / 2) * sqrt (1 + s * s / 2)).
    { rewrite <- sqrt_mult by (unfold s0; lra). rewrite <- (sqrt_square (1 + s0 * s / 2)) by (unfold s0; lra).
      apply sqrt_le_1_alt.
      assert ((1 + s0 * s0 / 2) * (1 + s * s / 2) - (1 + s0 * s / 2) * (1 + s0 * s / 2) = (s - s0) * (s - s0) / 2) by field.
      pose proof (Rle_0_sqr (s - s0)). unfold Rsqr in H1. lra. }
    pose proof (sqrt_pos (1 + s * s / 2)).
    apply Rle_trans with (K * (sqrt (1 + s0 * s0 / 2) * sqrt (1 + s * s / 2))).
    - apply Rmult_le_compat_l; auto. unfold K; lra.
    - rewrite <- Rmult_assoc. apply Rmult_le_compat_r; auto. }
  eapply Rle_trans; [|exact C].
  set (a := - (r3 + 1 - 2 * r2)). set (b := r2 - 1 - K * s0 / 2).
  assert (Ha : 0.09637631717 <= a) by (unfold a; lra).
  assert (Hb : 0 <= b <= 0.036) by (unfold b, K, s0; lra).
  assert (Disc : b * b <= a * (K - 1)).
  { assert (b <= 0.035970726) by (unfold b, K, s0; lra).
    assert (b * b <= 0.035970726 * 0.035970726) by (apply Rmult_le_compat; lra).
    assert (0.09637631717 * (K - 1) <= a * (K - 1)) by (apply Rmult_le_compat_r; unfold K; lra).
    unfold K in *. lra. }
  assert (Q : 0 <= a * (a / 4 * (s * s) - b * s + (K - 1))).
  { replace (a * (a / 4 * (s * s) - b * s + (K - 1))) with ((a * s / 2 - b) * (a * s / 2 - b) + (a * (K - 1) - b * b)) by field.
    pose proof (Rle_0_sqr (a * s / 2 - b)). unfold Rsqr in H. lra. }
  assert (0 <= a / 4 * (s * s) - b * s + (K - 1)).
  { destruct (Rle_or_lt 0 (a / 4 * (s * s) - b * s + (K - 1))); auto. exfalso. nra. }
  unfold a, b in H. lra.
Qed.

Lemma f3_upper x y : 0 <= x <= 1 -> 0 <= y <= 1 -> f3 x y <= slop3 * sqrt (1 + x * x + y * y).
Proof.
  intros Hx Hy. pose proof sqrt2_bounds as B2. pose proof sqrt3_bounds as B3.
  set (s := x + y). set (d := (x - y) * (x - y) / 4).
  assert (Hd : 0 <= d) by (unfold d; pose proof (Rle_0_sqr (x - y)) as Z; unfold Rsqr in Z; lra).
  pose proof (f3_upper_diag s ltac:(unfold s; lra)) as U.
  rewrite f3_sp. set (r2 := sqrt 2) in *. set (r3 := sqrt 3) in *.
  replace (x * y) with (s * s / 4 - d) by (unfold s, d; field). fold s.
  replace (1 + x * x + y * y) with (1 + s * s / 2 + 2 * d) by (unfold s, d; field).
  set (m0 := sqrt (1 + s * s / 2)) in *. set (m := sqrt (1 + s * s / 2 + 2 * d)).
  assert (E0 : m0 * m0 = 1 + s * s / 2) by (apply sqrt_sqrt; nra).
  assert (E1 : m * m = 1 + s * s / 2 + 2 * d) by (apply sqrt_sqrt; nra).
  assert (P0 : 0 <= m0) by apply sqrt_pos. assert (P1 : 0 <= m) by apply sqrt_pos.
  assert (M : m * m <= 3) by (rewrite E1; unfold s, d; nra).
  assert (M2 : m <= 2) by nra. assert (M02 : m0 <= 2) by nra.
  assert (Dm : 2 * d = (m - m0) * (m + m0)) by (ring_simplify; replace (m ^ 2) with (m * m) by ring; replace (m0 ^ 2) with (m0 * m0) by ring; rewrite E0, E1; ring).
  assert (Lm : d / 2 <= m - m0).
  { assert (0 <= m - m0) by nra. assert ((m - m0) * (m + m0) <= (m - m0) * 4) by (apply Rmult_le_compat_l; lra). lra. }
  assert (d * (2 * r2 - r3 - 1) <= d * (1/2)) by (apply Rmult_le_compat_l; lra).
  assert (d / 2 <= slop3 * (m - m0)). { unfold slop3. lra. }
  lra.
Qed.
End Sloppy.
