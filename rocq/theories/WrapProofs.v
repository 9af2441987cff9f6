(** Turns about the coordinate axes and about any axis. *)
From Coq Require Import Reals Lra Lia List Bool Psatz ZArith NArith.
From Flocq Require Import Core.Zaux Core.Raux.
From Verif Require Import Base Scalar ConstModel VecModel RotModel QuatModel WrapModel RSpec RLib VecSpec VecProofs VecProofs2 VecProofs4 RotSpec MatLib RotProofs RotProofs2 RotProofs3 QuatSpec QuatProofs QuatProofs2 QuatProofs3 QuatProofs6 MotionSpec DriftProofs AngleProofs TolProofs.
Import ListNotations.
Open Scope R_scope.

Section W.
Context (eps : Epsilon).
Implicit Types (v : vector R) (q : quat R).

(** rotation(axis, angle), without a condition on Dot and Cross *)
Lemma rotation_spin old axis angle q v : 0 < (eps : R) -> quat_rotation old axis angle = q -> qvalid q = true ->
  qdims q /\ unit_quat q /\ forall i, (i < 3)%nat -> spin (q4 q) (co v) i = rodrigues (co axis) angle (co v) i.
Proof.
  intros He Eq V. subst q. destruct (rotation_unit eps old axis angle He V) as (P & VA & U).
  assert (D : qdims (quat_rotation old axis angle)).
  { unfold quat_rotation in *. destruct (_ <? _)%num; [discriminate V|apply dims_tab]. }
  split; [exact D|]. split; [exact U|]. intros i Hi. rewrite <- formula_spin by auto. unfold formula. cbv zeta.
  assert (I : inner 3 (fun k => hpart (q4 (quat_rotation old axis angle)) k) (co v) = inner 3 (co (qv (quat_rotation old axis angle))) (co v)) by (apply inner_ext; intros; auto using q4_part).
  assert (C : cross_coord (fun k => hpart (q4 (quat_rotation old axis angle)) k) (co v) i = cross_coord (co (qv (quat_rotation old axis angle))) (co v) i) by (destruct i as [|[|[|]]]; try lia; reflexivity).
  rewrite I, C, (q4_part _ i Hi). change (hw (q4 (quat_rotation old axis angle))) with (qw (quat_rotation old axis angle)). clear I C D U.
  unfold quat_rotation in *. rewrite mag_norm in *. cbn [nltb Rnum neps] in *.
  destruct (Rlt_bool (norm 3 (co axis)) eps); [discriminate V|]. cbn [qw qv] in *. clear V.
  unfold rodrigues. cbn [ncos nsin ndiv n2 nofZ Rnum]. pose proof (norm_sq3 (co axis)) as S.
  assert (Ps : 0 < norm 3 (co axis)) by (apply sqrt_lt_R0; auto). set (n := norm 3 (co axis)) in *.
  set (c := cos (angle / 2)). set (s := sin (angle / 2)).
  assert (CA : cos angle = c * c - s * s) by (unfold c, s; rewrite <- cos_2a; f_equal; field).
  assert (SA : sin angle = 2 * s * c) by (unfold c, s; rewrite <- sin_2a; f_equal; field).
  rewrite CA, SA. clear CA SA.
  assert (CS : c * c = 1 - s * s) by (pose proof (sin2_cos2 (angle / 2)) as Q; unfold Rsqr in Q; unfold c, s; lra).
  clearbody c s n. set (u := vec_scale 3 axis (s / n)).
  assert (A : forall j, (j < 3)%nat -> co u j = co axis j * (s / n)) by (intros; unfold u, vec_scale; rewrite co_tab by auto; reflexivity).
  clearbody u. rewrite A by auto.
  assert (I : inner 3 (co u) (co v) = s / n * inner 3 (co axis) (co v)) by (unfold inner; cbn [Rsum]; rewrite !A by lia; ring).
  assert (C : cross_coord (co u) (co v) i = s / n * cross_coord (co axis) (co v) i) by (destruct i as [|[|[|]]]; try lia; cbn [cross_coord]; rewrite !A by lia; ring).
  rewrite I, C, <- S. replace (2 * c * c - 1) with (c * c - s * s) by lra. replace (1 - (c * c - s * s)) with (2 * s * s) by lra. field. lra.
Qed.
Lemma rotation_tol old axis angle q v : 0 < (eps : R) -> dims 3 v -> quat_rotation old axis angle = q -> qvalid q = true ->
  dist 3 (co (vec_rotate_q v q)) (rodrigues (co axis) angle (co v)) <= 14 * eps * Rmin 1 (norm 3 (co v)).
Proof.
  intros He Dv E V. destruct (rotation_spin old axis angle q v He E V) as (D & U & X).
  rewrite (dist_ext 3 _ _ (co (vec_rotate_q v q)) (spin (q4 q) (co v))); [apply rotate_tol; auto; lra|auto|intros i Hi; symmetry; auto].
Qed.
(** Vector::rotate(axis, angle) *)
Lemma rotate_axis_tol v axis angle w : 0 <= (eps : R) -> dims 3 v -> dims 3 axis -> vec_rotate_axis v axis angle = Ret w ->
  dims 3 w /\ valid w = (valid v && valid axis)%bool /\ dist 3 (co w) (rodrigues (co axis) angle (co v)) <= 8 * eps.
Proof.
  intros He Dv Da. unfold vec_rotate_axis, oassert. rewrite sqr_mag_norm2. unfold n0. cbn [neqb nofZ Rnum].
  destruct (Req_bool_spec (norm2 3 (co axis)) 0) as [Z|Z]; [discriminate|]. cbn [negb]. intros X. injection X as <-.
  split; [apply dims_tab|]. split; [cbn [valid vec_add vec_sub vec_scale vec_div cross3]; destruct (valid v), (valid axis); reflexivity|].
  assert (N0 : 0 <= norm 3 (co axis)) by apply norm_nonneg. pose proof (norm_sqr 3 (co axis)) as N2.
  assert (P : 0 < norm 3 (co axis)) by nra. clear N0.
  set (perp := vec_sub 3 v (vec_div 3 (vec_scale 3 axis (dot 3 v axis)) (norm2 3 (co axis)))).
  assert (Dp : dims 3 perp) by apply dims_tab.
  pose proof (dot_error eps 3 v axis (norm 3 (co v)) (norm 3 (co axis)) ltac:(lia) He Dv Da (fun i Hi => coord_norm 3 (co v) i Hi) (fun i Hi => coord_norm 3 (co axis) i Hi)) as E1.
  pose proof (fun i Hi => cross3_error eps axis perp (norm 3 (co axis)) (norm 3 (co perp)) i He Da Dp (fun i Hi => coord_norm 3 (co axis) i Hi) (fun i Hi => coord_norm 3 (co perp) i Hi) Hi) as E2.
  set (a := norm 3 (co axis)) in *. set (e1 := dot 3 v axis - inner 3 (co v) (co axis)) in *.
  assert (B1 : Rabs (e1 / a) <= 2 * eps). { unfold Rdiv. rewrite Rabs_mult, Rabs_inv, (Rabs_pos_eq a) by lra. apply Rmult_le_reg_r with a; [exact P|]. rewrite Rmult_assoc, Rinv_l by lra. eapply Rle_trans; [rewrite Rmult_1_r; exact E1|]. apply Rmult_le_compat_l; [lra|apply Rmin_r]. }
  assert (B2 : forall i, (i < 3)%nat -> Rabs ((co (cross3 axis perp) i - cross_coord (co axis) (co perp) i) / a) <= 2 * eps).
  { intros i Hi. unfold Rdiv. rewrite Rabs_mult, Rabs_inv, (Rabs_pos_eq a) by lra. apply Rmult_le_reg_r with a; [exact P|]. rewrite Rmult_assoc, Rinv_l by lra. rewrite Rmult_1_r. eapply Rle_trans; [apply (E2 i Hi)|]. apply Rmult_le_compat_l; [lra|apply Rmin_l]. }
  assert (Pp : forall j, (j < 3)%nat -> co perp j = co v j - co axis j * (inner 3 (co axis) (co v) + e1) / (a * a)).
  { intros j Hj. unfold perp, vec_sub, vec_div, vec_scale. rewrite co_tab by auto. rewrite ?at_tab by auto. toco. unfold e1. rewrite (inner_comm 3 (co axis)), N2. replace (inner 3 (co v) (co axis) + (dot 3 v axis - inner 3 (co v) (co axis))) with (dot 3 v axis) by ring. reflexivity. }
  assert (C : forall i, (i < 3)%nat -> cross_coord (co axis) (co perp) i = cross_coord (co axis) (co v) i).
  { intros i Hi. destruct i as [|[|[|]]]; try lia; cbn [cross_coord]; rewrite !Pp by lia; field; lra. }
  (* the error: a multiple of the axis, plus a small vector *)
  set (w := vec_add 3 v (vec_add 3 (vec_scale 3 perp (ncos angle - n1)%num) (vec_scale 3 (vec_div 3 (cross3 axis perp) (nsqrt (norm2 3 (co axis)))) (nsin angle)))).
  assert (Ew : forall i, (i < 3)%nat -> co w i - rodrigues (co axis) angle (co v) i = (1 - cos angle) * (e1 / a) * (co axis i / a) + sin angle * ((co (cross3 axis perp) i - cross_coord (co axis) (co perp) i) / a)).
  { intros i Hi. unfold w, vec_add, vec_scale, vec_div. rewrite co_tab by auto. rewrite ?at_tab by auto. toco. cbn [ncos nsin n1 nofZ nsub nsqrt Rnum]. rewrite (C i Hi), Pp by auto. unfold rodrigues. fold a. change (sqrt (norm2 3 (co axis))) with a. rewrite <- N2. field. lra. }
  set (mid := fun i => rodrigues (co axis) angle (co v) i + (1 - cos angle) * (e1 / a) * (co axis i / a)).
  pose proof (COS_bound angle) as Cb. pose proof (SIN_bound angle) as Sb.
  assert (T1 : dist 3 (co w) mid <= 7 / 4 * (2 * eps)).
  { apply dist_coords; [lra|]. intros i Hi. unfold mid. replace (_ - _) with (sin angle * ((co (cross3 axis perp) i - cross_coord (co axis) (co perp) i) / a)) by (rewrite <- (Rplus_comm ((1 - cos angle) * (e1 / a) * (co axis i / a))); specialize (Ew i Hi); lra).
    rewrite Rabs_mult. replace (2 * eps) with (1 * (2 * eps)) by ring. apply Rmult_le_compat; auto using Rabs_pos. apply Rabs_le. lra. }
  assert (T2 : dist 3 mid (rodrigues (co axis) angle (co v)) <= 4 * eps).
  { unfold dist, dist2, norm2, inner. rewrite (Rsum_ext 3 _ (fun i => ((1 - cos angle) * (e1 / a) / a) * ((1 - cos angle) * (e1 / a) / a) * (co axis i * co axis i))) by (intros i Hi; unfold mid; field; lra).
    rewrite Rsum_scal_l. change (Rsum 3 (fun i => co axis i * co axis i)) with (norm2 3 (co axis)). rewrite <- N2.
    match goal with |- sqrt ?x <= _ => replace x with (((1 - cos angle) * (e1 / a)) * ((1 - cos angle) * (e1 / a))) by (field; lra) end.
    set (z := (1 - cos angle) * (e1 / a)). fold (Rsqr z). rewrite sqrt_Rsqr_abs. unfold z. rewrite Rabs_mult. replace (4 * eps) with (2 * (2 * eps)) by ring. apply Rmult_le_compat; auto using Rabs_pos. apply Rabs_le. lra. }
  assert (G : dist 3 (co w) (rodrigues (co axis) angle (co v)) <= 8 * eps); [|exact G]. pose proof (dist_triangle 3 (co w) mid (rodrigues (co axis) angle (co v))). lra.
Qed.
End W.
