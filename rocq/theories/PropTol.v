(** C31, C32, C35 and C36 with a positive tolerance and without the condition that Dot and Cross
    keep every component ([exact_pair] in PropQuat): what the tolerance can cost. *)
From Coq Require Import Reals Lra Lia List Bool Psatz ZArith NArith SpecFloat.
From Flocq Require Import Core.Zaux Core.Raux.
From Verif Require Import Base Scalar ConstModel VecModel RotModel QuatModel RSpec RLib VecSpec VecProofs VecProofs2 VecProofs4 RotSpec QuatSpec QuatProofs QuatProofs2 QuatProofs3 QuatProofs5 QuatProofs6 QuatProofs7 MotionSpec DriftProofs AngleProofs TolProofs TolProofs2.
Import ListNotations.
Open Scope R_scope.

(** Two quaternions whose four components differ by at most e *)
Definition qnear (h k : ham) (e : R) : Prop := Rabs (hw h - hw k) <= e /\ Rabs (hx h - hx k) <= e /\ Rabs (hy h - hy k) <= e /\ Rabs (hz h - hz k) <= e.
(** The vector part of q v q^-1 *)
Definition turned_by (q : quat R) (v : nat -> R) (i : nat) : R := hpart (sandwich (q4 q) v) i.

(** ** C31 *)
Theorem C31_group_tolerance : forall (eps : Epsilon) p q r, 0 <= (eps : R) <= / 1000 -> qdims p -> qdims q -> qdims r -> unit_quat p -> unit_quat q -> unit_quat r ->
  qnear (q4 (quat_mul p q)) (hmul (q4 q) (q4 p)) (3 * eps) /\
  qnear (q4 (quat_div p q)) (hmul (hconj (q4 q)) (q4 p)) (3 * eps) /\
  qnear (q4 (quat_mul p (quat_inverse p))) hone (3 * eps) /\ qnear (q4 (quat_mul (quat_inverse p) p)) hone (3 * eps) /\
  qnear (q4 (quat_mul (quat_mul p q) r)) (q4 (quat_mul p (quat_mul q r))) (33 * eps) /\
  qnear (q4 (quat_inverse (quat_mul p q))) (q4 (quat_mul (quat_inverse q) (quat_inverse p))) (6 * eps).
Proof.
  intros eps p q r He Dp Dq Dr Up Uq Ur.
  assert (M : forall a b, qdims a -> qdims b -> unit_quat a -> unit_quat b -> hnear (q4 (quat_mul a b)) (hmul (q4 b) (q4 a)) (3 * eps)).
  { intros a b Da Db Ua Ub. replace (3 * eps) with (2 * 0 + 3 * eps) by ring. apply (mul_near_unit eps); auto using hnear_refl; lra. }
  destruct (inverse_q eps p Dp Up) as (Dip & Uip & Ip). destruct (inverse_q eps q Dq Uq) as (Diq & Uiq & Iq).
  split; [apply hnear_four; apply M; auto|].
  split; [rewrite div_is_mul_inverse, <- Iq by auto; apply hnear_four; apply M; auto|].
  split; [|split; [|split]].
  - replace hone with (hmul (q4 (quat_inverse p)) (q4 p)); [apply hnear_four; apply M; auto|]. rewrite Ip. unfold unit_quat, hnorm2 in Up. unfold hmul, hconj, hone. cbn [hw hx hy hz]. f_equal; try ring. rewrite <- Up. ring.
  - replace hone with (hmul (q4 p) (q4 (quat_inverse p))); [apply hnear_four; apply M; auto|]. rewrite Ip. unfold unit_quat, hnorm2 in Up. unfold hmul, hconj, hone. cbn [hw hx hy hz]. f_equal; try ring. rewrite <- Up. ring.
  - apply hnear_four. apply (assoc_tol eps); auto.
  - apply hnear_four. replace (6 * eps) with (3 * eps + 3 * eps) by ring. apply hnear_trans with (hconj (hmul (q4 q) (q4 p))).
    + rewrite inverse_q4. specialize (M p q Dp Dq Up Uq). apply hnear_four in M. apply hnear_four. cbn [hconj hw hx hy hz].
      assert (N : forall a b, Rabs (- a - - b) = Rabs (a - b)) by (intros a b; rewrite <- (Rabs_Ropp (a - b)); f_equal; ring). rewrite !N. exact M.
    + apply hnear_sym. replace (hconj (hmul (q4 q) (q4 p))) with (hmul (q4 (quat_inverse p)) (q4 (quat_inverse q))); [apply M; auto|]. rewrite Ip, Iq. unfold hmul, hconj. cbn [hw hx hy hz]. f_equal; ring.
Qed.
Print Assumptions C31_group_tolerance.

(** ** C32 *)
(** Rotating is q v q^-1, keeps lengths and distances, is undone by the inverse, and composes with the product. *)
Theorem C32_tolerance : forall (eps : Epsilon) (v w : vector R) p q, 0 <= (eps : R) <= / 1000 -> qdims p -> qdims q -> unit_quat p -> unit_quat q -> dims 3 v -> dims 3 w ->
  dist 3 (co (vec_rotate_q v q)) (turned_by q (co v)) <= 14 * eps * Rmin 1 (norm 3 (co v)) /\
  Rabs (norm 3 (co (vec_rotate_q v q)) - norm 3 (co v)) <= 14 * eps * Rmin 1 (norm 3 (co v)) /\
  Rabs (dist 3 (co (vec_rotate_q v q)) (co (vec_rotate_q w q)) - dist 3 (co v) (co w)) <= 14 * eps * (Rmin 1 (norm 3 (co v)) + Rmin 1 (norm 3 (co w))) /\
  dist 3 (co (vec_rotate_q (vec_rotate_q v q) (quat_inverse q))) (co v) <= 30 * eps * Rmin 1 (norm 3 (co v)) /\
  dist 3 (co (vec_rotate_q (vec_rotate_q v (quat_inverse q)) q)) (co v) <= 30 * eps * Rmin 1 (norm 3 (co v)) /\
  dist 3 (co (vec_rotate_q (vec_rotate_q v p) q)) (co (vec_rotate_q v (quat_mul p q))) <= 150 * eps * norm 3 (co v).
Proof.
  intros eps v w p q He Dp Dq Up Uq Dv Dw.
  pose proof (rotate_tol eps q v (proj1 He) Dq Dv Uq) as Tv. pose proof (rotate_tol eps q w (proj1 He) Dq Dw Uq) as Tw.
  split; [exact Tv|]. split; [|split; [|split; [|split]]].
  - eapply Rle_trans; [|exact Tv]. rewrite <- (spin_norm (q4 q) (co v) Uq). pose proof (norm_dist 3 (co (vec_rotate_q v q)) (spin (q4 q) (co v))) as A. pose proof (norm_dist 3 (spin (q4 q) (co v)) (co (vec_rotate_q v q))) as B. rewrite (dist_comm 3 (spin (q4 q) (co v))) in B. apply Rabs_le. lra.
  - pose proof (spin_dist (q4 q) (co v) (co w) Uq) as X0.
    set (a := co (vec_rotate_q v q)) in *. set (b := co (vec_rotate_q w q)) in *. set (a' := spin (q4 q) (co v)) in *. set (b' := spin (q4 q) (co w)) in *. clearbody a b a' b'.
    pose proof (dist_triangle 3 a a' b) as X1. pose proof (dist_triangle 3 a' b' b) as X2. pose proof (dist_triangle 3 a' a b') as X3. pose proof (dist_triangle 3 a b b') as X4.
    rewrite (dist_comm 3 b' b) in X2. rewrite (dist_comm 3 a' a) in X3. apply Rabs_le. lra.
  - exact (proj1 (undo_tol eps q v ltac:(lra) Dq Dv Uq)).
  - exact (proj2 (undo_tol eps q v ltac:(lra) Dq Dv Uq)).
  - apply (compose_tol eps); auto.
Qed.
Print Assumptions C32_tolerance.

(** ** C35 *)
(** Without a condition on Dot: rotation(from, to) throws exactly for opposite directions (to within the tolerance),
    and gives an invalid quaternion exactly if a vector is too short. *)
Theorem C35_outcomes_tolerance : forall (eps : Epsilon) old from to, 0 < (eps : R) <= / 16 -> dims 3 from -> dims 3 to ->
  let p := norm 3 (co from) * norm 3 (co to) in
  (p < eps -> exists q, quat_from_to old from to = Ret q /\ qvalid q = false) /\
  (eps <= p -> inner 3 (co from) (co to) / p + 1 < eps -> quat_from_to old from to = Throws) /\
  (eps <= p -> eps <= inner 3 (co from) (co to) / p + 1 -> exists q, quat_from_to old from to = Ret q /\ qvalid q = valid from && valid to).
Proof.
  intros eps old from to He Df Dt p. split; [|split].
  - intros H. rewrite (proj1 (from_to_short eps old from to H)). eauto.
  - intros H1 H2. apply (from_to_throws eps old from to H1). fold p. destruct (ft_dot eps from to Df Dt (proj1 He) H1) as [->|[E C]]; [exact H2|].
    exfalso. fold p in C. apply Rabs_le_inv in C. destruct (ft_pos eps from to (proj1 He) H1) as (F & T & P). set (f := norm 3 (co from)) in *. set (t := norm 3 (co to)) in *.
    assert (X : 2 * eps < Rmax f t * (1 - eps)).
    { assert (M : eps <= Rmax f t * Rmax f t). { apply Rle_trans with (1 := H1). apply Rmult_le_compat; try lra; [apply Rmax_l|apply Rmax_r]. }
      assert (M0 : 0 < Rmax f t) by (eapply Rlt_le_trans; [exact F|apply Rmax_l]). set (m := Rmax f t) in *. destruct (Rlt_le_dec (/ 4) m) as [L|L]; nra. }
    assert (M0 : 0 < Rmax f t) by (eapply Rlt_le_trans; [exact F|apply Rmax_l]).
    assert (Y : 2 * eps / Rmax f t < 1 - eps). { apply Rmult_lt_reg_r with (Rmax f t); [exact M0|]. unfold Rdiv. rewrite Rmult_assoc, Rinv_l by lra. lra. }
    lra.
  - intros H1 H2. assert (~ quat_from_to old from to = Throws).
    { intros C. apply (from_to_throws eps old from to H1) in C. fold p in C. destruct (ft_dot eps from to Df Dt (proj1 He) H1) as [D|[D _]]; rewrite D in C; [lra|]. unfold Rdiv in C. rewrite Rmult_0_l in C. lra. }
    revert H. unfold quat_from_to. repeat match goal with |- context [if ?b then _ else _] => destruct b eqn:? end; intros H.
    + exfalso. match goal with E : _ = true |- _ => rewrite !sqr_mag_norm2 in E; cbn [nltb Rnum neps nsqrt nmul] in E; rewrite sqrt_mul_norm in E; fold p in E end.
      rewrite Rlt_bool_false in Heqb by lra. discriminate.
    + now contradiction H.
    + eauto.
Qed.
Print Assumptions C35_outcomes_tolerance.

(** How far rotation(from, to) is from the rotation that is meant, without a condition on Dot and Cross.
    d is the relative error of Dot and Cross; the angle between the vectors enters through k = 1 + cos.
    Missing: vectors so short or so nearly opposite that 200 d > sqrt k; there C35_unit_double_refuted applies. *)
Theorem C35_tolerance_partial : forall (eps : Epsilon) old (from to : vector R) q, 0 < (eps : R) -> dims 3 from -> dims 3 to ->
  let f := norm 3 (co from) in let t := norm 3 (co to) in
  let k := 1 + inner 3 (co from) (co to) / (f * t) in let d := 2 * eps / Rmax f t in
  quat_from_to old from to = Ret q -> qvalid q = true -> 200 * d <= sqrt k -> 
  0 < f /\ 0 < t /\ Rabs (hnorm2 (q4 q) - 1) <= 9 * d / sqrt k /\
  dist 3 (co (vec_rotate_q from q)) (fun i => f / t * co to i) <= (64 * d / sqrt k + 17 * eps) * f.
Proof.
  intros eps old from to q He Df Dt f t k d E V H.
  assert (Hp : eps <= f * t).
  { destruct (Rle_lt_dec eps (f * t)) as [L|L]; [exact L|]. exfalso. rewrite (proj1 (from_to_short eps old from to L)) in E. injection E as <-. discriminate. }
  destruct (ft_pos eps from to He Hp) as (F & T & P). pose proof (ft_delta eps from to He Hp) as D0.
  assert (Ks : k = inner 3 (co from) (co to) / (f * t) + 1) by (unfold k; ring). 
  assert (K : 0 < k). { destruct (Rle_lt_dec k 0) as [L|L]; [|exact L]. exfalso. rewrite sqrt_neg in H by lra. unfold d, f, t in H. lra. }
  rewrite Ks in *. destruct (from_to_tol eps from to Df Dt He Hp old q E V K H) as [A B]. fold f t in A, B. fold d in A, B.
  split; [exact F|]. split; [exact T|]. split; unfold Rdiv in *; rewrite !Rmult_assoc in *; auto.
Qed.
Print Assumptions C35_tolerance_partial.

Definition fl (z e : Z) : spec_float := SFldexp prec64 emax64 (b64_ofZ z) e.
(** Two vectors of length about 8e-8 in nearly opposite directions, in doubles: the quaternion is
    valid, its vector part is zero and its scalar part is below 2^-23 *)
Theorem C35_unit_double_refuted : forall m : libm,
  let from := mkC [fl 1405 (-34); b64_ofZ 0; b64_ofZ 0] true in
  let to := mkC [SFopp (fl 1405 (-34)); SFmul prec64 emax64 (fl 1405 (-34)) (fl 2000 (-34)); b64_ofZ 0] true in
  exists q, quat_from_to (H := B64 m) (quat_identity (H := B64 m)) from to = Ret q /\ qvalid q = true /\ valid (qv q) = true /\
    el (qv q) = [b64_ofZ 0; b64_ofZ 0; b64_ofZ 0] /\ SFltb (b64_ofZ 0) (qw q) = true /\ SFltb (qw q) (fl 1 (-23)) = true.
Proof.
  intros m from to. exists (mkQ (S754_finite false 8793559382520936 (-77)) (mkC [b64_ofZ 0; b64_ofZ 0; b64_ofZ 0] true) true 1%N).
  split; [subst from to; vm_compute; reflexivity|]. repeat split; vm_compute; reflexivity.
Qed.
Print Assumptions C35_unit_double_refuted.

(** ** C36 *)
Theorem C36_point_quaternion_tolerance : forall (eps : Epsilon) (x o : point R) q, 0 <= (eps : R) <= / 100 -> qdims q -> unit_quat q -> dims 3 x -> dims 3 o ->
  dist 3 (co (point_to_local_q (point_to_parent_q x o q) o q)) (co x) <= 30 * eps * Rmin 1 (norm 3 (co x)) /\
  dist 3 (co (point_to_parent_q (point_to_local_q x o q) o q)) (co x) <= 30 * eps * Rmin 1 (dist 3 (co x) (co o)).
Proof. intros eps x o q He Dq Uq Dx Do. exact (local_parent_tol eps x o q He Dq Uq Dx Do). Qed.
Print Assumptions C36_point_quaternion_tolerance.

(** Non-trivial unit quaternions, and a pair of vectors at a right angle *)
Example C31_tolerance_example : qdims qx /\ unit_quat qx /\ qdims qz /\ unit_quat qz /\ q4 qx <> q4 qz.
Proof. repeat split; try apply qx_unit; try apply qz_unit. unfold q4, qx, qz. cbn [qw qv co el nth]. intros E. injection E. lra. Qed.
Example C35_tolerance_example : forall eps : Epsilon, 0 < (eps : R) <= / 1000 ->
  let from := mkC [1; 0; 0] true in let to := mkC [0; 2; 0] true in let f := norm 3 (co from) in let t := norm 3 (co to) in
  dims 3 from /\ dims 3 to /\ eps <= f * t /\ 200 * (2 * eps / Rmax f t) <= sqrt (1 + inner 3 (co from) (co to) / (f * t)).
Proof.
  intros eps He from to f t.
  assert (NF : f = 1). { unfold f, norm. rewrite norm2_3. rewrite <- sqrt_1. f_equal. unfold co, from. cbn [el nth]. ring. }
  assert (NT : t = 2). { unfold t, norm. rewrite norm2_3. replace (co to 0 * co to 0 + co to 1 * co to 1 + co to 2 * co to 2) with (2 * 2); [apply sqrt_square; lra|]. unfold co, to. cbn [el nth]. ring. }
  rewrite NF, NT. split; [reflexivity|]. split; [reflexivity|]. split; [lra|].
  assert (inner 3 (co from) (co to) = 0) as -> by (unfold inner, co, from, to; cbn [Rsum el nth]; ring). rewrite Rmax_right by lra. replace (1 + 0 / (1 * 2)) with 1 by field. rewrite sqrt_1. lra.
Qed.
