(** sloppyMag in three dimensions, sloppyNorm, polar and spherical coordinates. *)
From Coq Require Import Reals Lra Lia List Bool Psatz ZArith.
From Flocq Require Import Core.Zaux Core.Raux.
From Verif Require Import Base Scalar ConstModel VecModel RSpec RLib VecSpec VecProofs VecProofs2.
Import ListNotations.
Open Scope R_scope.

Section S3.
Context (eps : Epsilon).

Definition g3 (M a b : R) : R := M + (sqrt 2 - 1) * (a + b) + (sqrt 3 + 1 - 2 * sqrt 2) * a * b / M.

Lemma g3_bounds M a b : 0 < M -> 0 <= a <= M -> 0 <= b <= M ->
  sqrt (M * M + a * a + b * b) <= g3 M a b <= slop3 * sqrt (M * M + a * a + b * b).
Proof.
  intros HM Ha Hb.
  set (x := a / M). set (y := b / M).
  assert (Ea : a = M * x) by (unfold x; field; lra). assert (Eb : b = M * y) by (unfold y; field; lra).
  assert (Hx : 0 <= x <= 1).
  { split; [apply Rmult_le_pos; [lra|apply Rlt_le, Rinv_0_lt_compat; lra]|].
    apply (Rmult_le_reg_l M); auto. rewrite <- Ea. lra. }
  assert (Hy : 0 <= y <= 1).
  { split; [apply Rmult_le_pos; [lra|apply Rlt_le, Rinv_0_lt_compat; lra]|].
    apply (Rmult_le_reg_l M); auto. rewrite <- Eb. lra. }
  assert (Eg : g3 M a b = M * f3 x y) by (unfold g3, f3; rewrite Ea, Eb; field; lra).
  assert (Es : sqrt (M * M + a * a + b * b) = M * sqrt (1 + x * x + y * y)).
  { rewrite Ea, Eb. replace (M * M + M * x * (M * x) + M * y * (M * y)) with (M * M * (1 + x * x + y * y)) by ring.
    rewrite sqrt_mult by nra. rewrite sqrt_square by lra. reflexivity. }
  rewrite Eg, Es. split.
  - apply Rmult_le_compat_l; [lra|]. pose proof (f3_lower x y Hx Hy).
    apply sqrt_le_iff; auto; try nra.
    rewrite f3_sp. pose proof sqrt2_bounds. pose proof sqrt3_bounds.
    assert (0 <= (sqrt 2 - 1) * (x + y)) by (apply Rmult_le_pos; lra).
    assert (x * y <= 1) by nra. assert (0 <= x * y) by nra. nra.
  - replace (slop3 * (M * sqrt (1 + x * x + y * y))) with (M * (slop3 * sqrt (1 + x * x + y * y))) by ring.
    apply Rmult_le_compat_l; [lra|]. apply f3_upper; auto.
Qed.

Lemma sqr_abs x : x * x = Rabs x * Rabs x.
Proof. unfold Rabs; destruct (Rcase_abs x); ring. Qed.

Lemma sloppy3_bracket (v : coords R) : mag 3 v <= sloppy_mag3 v <= slop3 * mag 3 v.
Proof.
  rewrite mag_norm. unfold norm, norm2, inner. cbn [Rsum].
  unfold sloppy_mag3. cbn [nltb nsqrt2 nsqrt3 Rnum]. toco.
  rewrite (sqr_abs (co v 0)), (sqr_abs (co v 1)), (sqr_abs (co v 2)).
  pose proof (Rabs_pos (co v 0)) as P0. pose proof (Rabs_pos (co v 1)) as P1. pose proof (Rabs_pos (co v 2)) as P2.
  set (x := Rabs (co v 0)) in *. set (y := Rabs (co v 1)) in *. set (z := Rabs (co v 2)) in *.
  assert (G : forall M a b, 0 < M -> 0 <= a <= M -> 0 <= b <= M -> forall N g, N = M * M + a * a + b * b ->
     g = g3 M a b -> sqrt N <= g <= slop3 * sqrt N).
  { intros M a b HM Ha Hb N g -> ->. apply g3_bounds; auto. }
  destruct (Rlt_bool_spec y x); destruct (Rlt_bool_spec z x); cbn [andb].
  - apply (G x y z); try lra; unfold g3; field; lra.
  - destruct (Rlt_bool_spec z y); [lra|]. destruct (Rlt_bool_spec 0 z); [|lra].
    apply (G z x y); try lra; unfold g3; field; lra.
  - destruct (Rlt_bool_spec z y).
    + apply (G y x z); try lra; unfold g3; field; lra.
    + destruct (Rlt_bool_spec 0 z); [|lra]. apply (G z x y); try lra; unfold g3; field; lra.
  - destruct (Rlt_bool_spec z y).
    + apply (G y x z); try lra; unfold g3; field; lra.
    + destruct (Rlt_bool_spec 0 z).
      * apply (G z x y); try lra; unfold g3; field; lra.
      * replace x with 0 by lra. replace y with 0 by lra. replace z with 0 by lra.
        rewrite !Rmult_0_r, !Rplus_0_r, sqrt_0. lra.
Qed.

(** The constant in the code is below the true maximum. *)
Lemma sloppy3_above_constant :
  let v := mk3 (3732/10000) (3732/10000) 1 in sloppy_max3 * mag 3 v < sloppy_mag3 v.
Proof.
  cbn zeta. rewrite mag_norm. unfold norm, norm2, inner. cbn [Rsum].
  unfold sloppy_mag3, sloppy_max3. cbn [nltb nsqrt2 nsqrt3 Rnum]. toco.
  change (co (mk3 (3732 / 10000) (3732 / 10000) 1) 0) with (3732/10000).
  change (co (mk3 (3732 / 10000) (3732 / 10000) 1) 1) with (3732/10000).
  change (co (mk3 (3732 / 10000) (3732 / 10000) 1) 2) with 1.
  rewrite !Rabs_pos_eq by lra.
  rewrite Rlt_bool_false by lra. cbn [andb]. rewrite Rlt_bool_false by lra. rewrite Rlt_bool_true by lra.
  pose proof sqrt2_bounds as B2. pose proof sqrt3_bounds as B3.
  match goal with |- _ < ?e => set (g := e) end.
  assert (Eg : g = 1 + (sqrt 2 - 1) * (7464/10000) + (sqrt 3 + 1 - 2 * sqrt 2) * (13927824 / 100000000)) by (unfold g; field).
  assert (Lg : (129574587 / 100000000) < g) by (rewrite Eg; lra).
  eapply Rle_lt_trans; [|exact Lg].
  assert (sqrt (0 + 3732 / 10000 * (3732 / 10000) + 3732 / 10000 * (3732 / 10000) + 1 * 1) <= (129574587 / 100000000) / (9612797 / 8388608)).
  { apply sqrt_le_iff; lra. }
  replace (129574587 / 100000000) with (9612797 / 8388608 * ((129574587 / 100000000) / (9612797 / 8388608))) at 1 by field.
  apply Rmult_le_compat_l; [lra|exact H].
Qed.

(** sloppyNorm: for any bracketing constant *)
Lemma scaled_norm n (v : coords R) k m C : 0 <= k -> 0 < m -> 1 <= C -> mag n v <= m <= C * mag n v ->
  k / C <= mag n (vec_scale n v (k / m)%num) <= k.
Proof.
  intros Hk Hm HC [L U]. cbn [ndiv Rnum].
  assert (E : mag n (vec_scale n v (k / m)) = k / m * mag n v).
  { rewrite !mag_norm. unfold norm.
    assert (P : 0 <= k / m) by (apply Rmult_le_pos; [|apply Rlt_le, Rinv_0_lt_compat]; lra).
    replace (norm2 n (co (vec_scale n v (k / m)))) with (k / m * (k / m) * norm2 n (co v)).
    - rewrite sqrt_mult by (try apply norm2_nonneg; nra). rewrite sqrt_square by auto. reflexivity.
    - rewrite <- norm2_scal. apply inner_ext; intros; unfold vec_scale; rewrite co_tab by auto; toco; ring. }
  rewrite E.
  assert (Pm : 0 < mag n v).
  { assert (0 <= mag n v) by (rewrite mag_norm; apply sqrt_pos).
    destruct (Req_dec (mag n v) 0) as [Z|]; [|lra]. rewrite Z in U. lra. }
  replace (k / m * mag n v) with (k * (mag n v / m)) by (field; lra).
  assert (R1 : mag n v / m <= 1). { apply (Rmult_le_reg_r m); auto. unfold Rdiv. rewrite Rmult_assoc, Rinv_l by lra. lra. }
  assert (R2 : / C <= mag n v / m).
  { apply (Rmult_le_reg_r (C * m)). nra. replace (/ C * (C * m)) with m by (field; lra).
    replace (mag n v / m * (C * m)) with (C * mag n v) by (field; lra). lra. }
  split; [unfold Rdiv at 1; apply Rmult_le_compat_l; auto|].
  rewrite <- (Rmult_1_r k) at 2. apply Rmult_le_compat_l; auto.
Qed.

Lemma maxval_pos : 0 < nmaxval.
Proof.
  cbn [nmaxval Rnum]. pose proof (bpow_lt radix2 971 1024 ltac:(lia)). lra.
Qed.

Lemma sloppy_norm2_ok (v v' : coords R) k : 0 <= k -> sloppy_norm2 v k = Ret v' ->
  k / sloppy_max2 <= mag 2 v' <= k.
Proof.
  intros Hk E. unfold sloppy_norm2 in E. apply oassert_ret in E as [A E]. inversion E; subst; clear E.
  cbn [nltb Rnum] in A. apply Rltb_iff in A. cbn [ndiv Rnum] in A.
  pose proof maxval_pos as M.
  assert (0 <= k / nmaxval) by (apply Rmult_le_pos; [|apply Rlt_le, Rinv_0_lt_compat]; lra).
  change (@ndiv R _ k sloppy_max2) with (k / sloppy_max2).
  apply scaled_norm; auto; try lra.
  - unfold sloppy_max2. cbn [ndiv nofZ Rnum]. lra.
  - apply sloppy2_bracket.
Qed.
Lemma sloppy_norm3_ok (v v' : coords R) k : 0 <= k -> sloppy_norm3 v k = Ret v' ->
  k / slop3 <= mag 3 v' <= k.
Proof.
  intros Hk E. unfold sloppy_norm3 in E. apply oassert_ret in E as [A E]. inversion E; subst; clear E.
  cbn [nltb Rnum] in A. apply Rltb_iff in A. cbn [ndiv Rnum] in A.
  pose proof maxval_pos as M.
  assert (0 <= k / nmaxval) by (apply Rmult_le_pos; [|apply Rlt_le, Rinv_0_lt_compat]; lra).
  apply scaled_norm; auto; try lra.
  - unfold slop3. lra.
  - apply sloppy3_bracket.
Qed.
(** the assertion of sloppyNorm fails only for (nearly) zero vectors *)
Lemma sloppy_norm2_defined (v : coords R) k : k / nmaxval < mag 2 v -> exists v', sloppy_norm2 v k = Ret v'.
Proof.
  intros H. unfold sloppy_norm2. cbn [nltb ndiv Rnum]. destruct (sloppy2_bracket eps v).
  rewrite Rlt_bool_true by (cbn [nmaxval Rnum] in *; lra). cbn. eauto.
Qed.
Lemma sloppy_norm3_defined (v : coords R) k : k / nmaxval < mag 3 v -> exists v', sloppy_norm3 v k = Ret v'.
Proof.
  intros H. unfold sloppy_norm3. cbn [nltb ndiv Rnum]. destruct (sloppy3_bracket v).
  rewrite Rlt_bool_true by (cbn [nmaxval Rnum] in *; lra). cbn. eauto.
Qed.
Lemma sloppy1_exact (v : coords R) : sloppy_mag1 v = mag 1 v.
Proof.
  rewrite mag_norm. unfold sloppy_mag1, norm, norm2, inner. cbn [Rsum]. toco.
  rewrite Rplus_0_l. symmetry. apply sqrt_Rsqr_abs.
Qed.
End S3.

(** ** atan2 *)
Lemma cos_atan_pos t : 0 < cos (atan t).
Proof. destruct (atan_bound t). apply cos_gt_0; lra. Qed.

Lemma atan_cos_sin t : cos (atan t) = / sqrt (1 + t * t) /\ sin (atan t) = t / sqrt (1 + t * t).
Proof.
  pose proof (cos_atan_pos t) as C. pose proof (tan_atan t) as Ta. unfold tan in Ta.
  assert (S : sin (atan t) = t * cos (atan t)) by (rewrite <- Ta at 2; field; lra).
  pose proof (sin2_cos2 (atan t)) as E. unfold Rsqr in E. rewrite S in E.
  assert (P : 0 < 1 + t * t) by nra.
  assert (E2 : cos (atan t) * cos (atan t) = / (1 + t * t)).
  { apply (Rmult_eq_reg_r (1 + t * t)); [|lra]. rewrite Rinv_l by lra. nra. }
  assert (Ec : cos (atan t) = / sqrt (1 + t * t)).
  { rewrite <- (sqrt_square (cos (atan t))) by lra. rewrite E2. apply sqrt_inv. }
  split; auto. rewrite S, Ec. reflexivity.
Qed.

Lemma sqrt_1_div y x : x <> 0 -> sqrt (1 + y / x * (y / x)) = sqrt (x * x + y * y) / Rabs x.
Proof.
  intros H. replace (1 + y / x * (y / x)) with ((x * x + y * y) * / (x * x)) by (field; auto).
  assert (0 < x * x) by nra. rewrite sqrt_mult; [|nra|apply Rlt_le, Rinv_0_lt_compat; auto].
  rewrite sqrt_inv. fold (Rsqr x). rewrite sqrt_Rsqr_abs. reflexivity.
Qed.

Lemma Ratan2_spec y x : 0 < x * x + y * y ->
  sqrt (x * x + y * y) * cos (Ratan2 y x) = x /\ sqrt (x * x + y * y) * sin (Ratan2 y x) = y.
Proof.
  intros H. pose proof (sqrt_lt_R0 _ H) as Pr.
  unfold Ratan2. destruct (Rlt_bool_spec 0 x) as [Hx|Hx].
  - destruct (atan_cos_sin (y / x)) as [C S]. rewrite C, S, sqrt_1_div, Rabs_pos_eq by lra.
    split; field; lra.
  - destruct (Rlt_bool_spec x 0) as [Hx'|Hx'].
    + destruct (atan_cos_sin (y / x)) as [C S]. rewrite sqrt_1_div, Rabs_left in C, S by lra.
      destruct (Rle_bool_spec 0 y).
      * rewrite neg_cos, neg_sin, C, S. split; field; lra.
      * replace (atan (y / x) - PI) with (-(PI - atan (y/x))) by ring.
        rewrite cos_neg, sin_neg. rewrite Rtrigo_facts.cos_pi_minus, Rtrigo_facts.sin_pi_minus, C, S. split; field; lra.
    + assert (x = 0) by lra. subst x. rewrite Rmult_0_l, Rplus_0_l in *.
      destruct (Rlt_bool_spec 0 y) as [Hy|Hy].
      * rewrite cos_PI2, sin_PI2, sqrt_square by lra. split; ring.
      * destruct (Rlt_bool_spec y 0) as [Hy'|Hy'].
        -- rewrite cos_neg, sin_neg, cos_PI2, sin_PI2. replace (y * y) with ((-y) * (-y)) by ring. rewrite sqrt_square by lra. split; ring.
        -- assert (y = 0) by lra. subst. lra.
Qed.

Section Polar.
Context (eps : Epsilon).

Lemma polar_radius r theta : 0 <= r -> fst (as_polar (polar2 r theta)) = r.
Proof.
  intros Hr. unfold as_polar, polar2, mk2, at_, get. cbn [el nth fst]. cbn [nsqrt nadd nmul ncos nsin Rnum].
  replace (r * cos theta * (r * cos theta) + r * sin theta * (r * sin theta)) with (r * r).
  - apply sqrt_square; auto.
  - pose proof (sin2_cos2 theta) as E. unfold Rsqr in E. 
    replace (r * cos theta * (r * cos theta) + r * sin theta * (r * sin theta)) with (r * r * (sin theta * sin theta + cos theta * cos theta)) by ring.
    rewrite E. ring.
Qed.

(** converting a vector to polar coordinates and back exchanges its coordinates *)
Lemma polar_swaps x y : 0 < x * x + y * y ->
  let (r, theta) := as_polar (mk2 x y) in polar2 r theta = mk2 y x.
Proof.
  intros H. unfold as_polar, polar2, mk2, at_, get. cbn [el nth]. cbn [nsqrt nadd nmul ncos nsin natan2 Rnum].
  destruct (Ratan2_spec x y ltac:(lra)) as [C S].
  replace (x * x + y * y) with (y * y + x * x) by ring. rewrite C, S. reflexivity.
Qed.

(** the angle read back is the complementary angle *)
Lemma polar_angle r theta : 0 < r -> let t := snd (as_polar (polar2 r theta)) in
  cos t = sin theta /\ sin t = cos theta.
Proof.
  intros Hr. unfold as_polar, polar2, mk2, at_, get. cbn [el nth snd]. cbn [nsqrt nadd nmul ncos nsin natan2 Rnum].
  assert (E : r * sin theta * (r * sin theta) + r * cos theta * (r * cos theta) = r * r).
  { pose proof (sin2_cos2 theta) as E. unfold Rsqr in E.
    replace (r * sin theta * (r * sin theta) + r * cos theta * (r * cos theta)) with (r * r * (sin theta * sin theta + cos theta * cos theta)) by ring.
    rewrite E. ring. }
  destruct (Ratan2_spec (r * cos theta) (r * sin theta)) as [C S]; rewrite E in *; try nra.
  rewrite sqrt_square in C, S by lra. split; apply (Rmult_eq_reg_l r); lra.
Qed.

Lemma spherical_back x y z : 0 < x * x + y * y ->
  let '(r, theta, phi) := as_spherical (mk3 x y z) in
  let rho := sqrt (x * x + y * y) in
  spherical r theta phi = mk3 (z * y / rho) (z * x / rho) rho.
Proof.
  intros H. unfold as_spherical, spherical, mk3, at_, get. cbn [el nth]. cbn [nsqrt nadd nmul ncos nsin natan2 Rnum].
  set (rho := sqrt (x * x + y * y)).
  assert (Pr : 0 < rho) by (apply sqrt_lt_R0; auto).
  assert (Er : rho * rho = x * x + y * y) by (apply sqrt_sqrt; lra).
  destruct (Ratan2_spec x y ltac:(lra)) as [C1 S1].
  replace (y * y + x * x) with (x * x + y * y) in C1, S1 by ring. fold rho in C1, S1.
  destruct (Ratan2_spec z rho) as [C2 S2]. { rewrite Er. nra. }
  rewrite Er in C2, S2. rewrite C2.
  assert (Ca : cos (Ratan2 x y) = y / rho) by (apply (Rmult_eq_reg_l rho); [rewrite C1; field|]; lra).
  assert (Sa : sin (Ratan2 x y) = x / rho) by (apply (Rmult_eq_reg_l rho); [rewrite S1; field|]; lra).
  set (R0 := sqrt (x * x + y * y + z * z)) in *.
  replace (R0 * sin (Ratan2 z rho) * cos (Ratan2 x y)) with (z * y / rho).
  2:{ rewrite S2, Ca. field. lra. }
  replace (R0 * sin (Ratan2 z rho) * sin (Ratan2 x y)) with (z * x / rho).
  2:{ rewrite S2, Sa. field. lra. }
  reflexivity.
Qed.
Lemma spherical_radius r theta phi : 0 <= r -> fst (fst (as_spherical (spherical r theta phi))) = r.
Proof.
  intros Hr. unfold as_spherical, spherical, mk3, at_, get. cbn [el nth fst]. cbn [nsqrt nadd nmul ncos nsin Rnum].
  match goal with |- sqrt ?e = r => replace e with (r * r) end.
  - apply sqrt_square; auto.
  - pose proof (sin2_cos2 theta) as E. pose proof (sin2_cos2 phi) as E'. unfold Rsqr in *.
    replace (r * sin theta * cos phi * (r * sin theta * cos phi) + r * sin theta * sin phi * (r * sin theta * sin phi) + r * cos theta * (r * cos theta))
      with (r * r * (sin theta * sin theta * (sin phi * sin phi + cos phi * cos phi) + cos theta * cos theta)) by ring.
    rewrite E'. rewrite Rmult_1_r, E. ring.
Qed.
Lemma polar3_swaps x y z : 0 < x * x + y * y ->
  let '(r, theta, z') := as_polar3 (mk3 x y z) in polar3 r theta z' = mk3 y x z.
Proof.
  intros H. unfold as_polar3, polar3, mk3, at_, get. cbn [el nth]. cbn [nsqrt nadd nmul ncos nsin natan2 Rnum].
  destruct (Ratan2_spec x y ltac:(lra)) as [C S].
  replace (x * x + y * y) with (y * y + x * x) by ring. rewrite C, S. reflexivity.
Qed.
End Polar.
