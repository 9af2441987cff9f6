(** C67: turns and mirrors named after an axis, the operators on matrices, Parallel with two
    arguments and the zero constants mean what their names say. *)
From Coq Require Import Reals Lra Lia List Bool Psatz ZArith NArith.
From Flocq Require Import Core.Zaux Core.Raux.
From Verif Require Import Base Scalar ConstModel VecModel RotModel QuatModel WrapModel RSpec RLib VecSpec VecProofs VecProofs2 VecProofs4 VecProofs5 RotSpec MatLib RotProofs RotProofs2 RotProofs3 QuatSpec QuatProofs QuatProofs2 QuatProofs3 QuatProofs6 MotionSpec DriftProofs AngleProofs TolProofs WrapProofs PropAngle.
Import ListNotations.
Open Scope R_scope.

(** The right-handed turn by theta about coordinate axis k of space: e_(k+1) moves towards e_(k+2). *)
Definition turn (k : nat) (theta : R) (x : nat -> R) (i : nat) : R :=
  let a := ((k + 1) mod 3)%nat in let b := ((k + 2) mod 3)%nat in
  if Nat.eqb i a then cos theta * x a - sin theta * x b
  else if Nat.eqb i b then sin theta * x a + cos theta * x b
  else x i.
(** The turn of the plane *)
Definition turn2 (theta : R) (x : nat -> R) (i : nat) : R :=
  match i with O => cos theta * x 0%nat - sin theta * x 1%nat | _ => sin theta * x 0%nat + cos theta * x 1%nat end.
(** The mirror perpendicular to axis k *)
Definition mirrored (k : nat) (x : nat -> R) (i : nat) : R := if Nat.eqb i k then - x i else x i.

Section P.
Context (eps : Epsilon).

Lemma turn_axes (v : vector R) k theta : dims 3 v -> (k < 3)%nat ->
  exists w, vec_rotate_axes (H := Rnum eps) 3 v ((k + 1) mod 3) ((k + 2) mod 3) theta = Ret w /\ dims 3 w /\ valid w = valid v /\ forall i, (i < 3)%nat -> co w i = turn k theta (co v) i.
Proof.
  intros D Hk. destruct v as [l b]. unfold dims in D. cbn [el] in D. destruct l as [|x [|y [|z [|]]]]; try discriminate D.
  destruct k as [|[|[|]]]; try lia; cbn -[Rmult Rplus Rminus]; (eexists; split; [reflexivity|]; split; [reflexivity|]; split; [reflexivity|]; intros i Hi; destruct i as [|[|[|]]]; try lia; unfold co, turn; cbn -[Rmult Rplus Rminus]; try reflexivity; ring).
Qed.
Lemma turn_matrix k theta : (k < 3)%nat -> exists m, rot_plane (H := Rnum eps) 3 ((k + 1) mod 3) ((k + 2) mod 3) theta = Ret m /\ mvalid m = true /\ mflip m = false /\
  forall (v : vector R), (forall i, (i < 3)%nat -> co (vec_rotate 3 v m) i = turn k theta (co v) i) /\ (forall i, (i < 3)%nat -> co (prod_mv 3 m v) i = turn k (- theta) (co v) i).
Proof.
  intros Hk. destruct (rot_plane (H := Rnum eps) 3 ((k + 1) mod 3) ((k + 2) mod 3) theta) as [m| | |] eqn:E; try (exfalso; destruct k as [|[|[|]]]; try lia; discriminate E).
  exists m. destruct (plane_ent eps 3 _ _ _ _ E) as (_ & _ & _ & Dm & Em & Fm & Vm). split; [reflexivity|]. split; [exact Vm|]. split; [exact Fm|].
  intros v. split; intros i Hi.
  - rewrite (rotate_co eps) by auto. unfold mapply, mtr. rewrite (Rsum_ext 3 _ (fun j => rank2 (ej ((k + 1) mod 3)) (ej ((k + 2) mod 3)) (cos theta - 1) (sin theta) (- sin theta) (cos theta - 1) j i * co v j)) by (intros j Hj; rewrite Em by auto; ring).
    unfold turn, rank2, ej, delta. cbn [Rsum]. clear E Em. destruct k as [|[|[|]]]; try lia; destruct i as [|[|[|]]]; try lia; cbn -[Rmult Rplus Rminus Ropp]; ring.
  - rewrite (prod_mv_co eps) by auto. unfold mapply. rewrite (Rsum_ext 3 _ (fun j => rank2 (ej ((k + 1) mod 3)) (ej ((k + 2) mod 3)) (cos theta - 1) (sin theta) (- sin theta) (cos theta - 1) i j * co v j)) by (intros j Hj; rewrite Em by auto; ring).
    unfold turn, rank2, ej, delta. rewrite cos_neg, sin_neg. clear E Em. cbn [Rsum]. destruct k as [|[|[|]]]; try lia; destruct i as [|[|[|]]]; try lia; cbn -[Rmult Rplus Rminus Ropp]; ring.
Qed.
Lemma turn_rodrigues k s theta (a x : nat -> R) i : (k < 3)%nat -> 0 < s -> (forall j, (j < 3)%nat -> a j = if Nat.eqb j k then s else 0) -> (i < 3)%nat -> rodrigues a theta x i = turn k theta x i.
Proof.
  intros Hk Hs A Hi. assert (N2 : norm2 3 a = s * s) by (rewrite norm2_3, !A by lia; destruct k as [|[|[|]]]; try lia; cbn; ring).
  assert (N : norm 3 a = s) by (unfold norm; rewrite N2; apply sqrt_square; lra).
  unfold rodrigues. rewrite N, N2. unfold inner. cbn [Rsum]. unfold turn.
  destruct i as [|[|[|]]]; try lia; cbn [cross_coord]; rewrite !A by lia; destruct k as [|[|[|]]]; try lia; cbn -[Rmult Rplus Rminus Ropp Rdiv Rinv]; field; lra.
Qed.
End P.

(** rotateX, rotateY, rotateZ of a vector *)
Theorem C67_vector : forall (eps : Epsilon) (v : vector R) theta, dims 3 v ->
  let turns k (r : outcome (vector R)) := exists w, r = Ret w /\ dims 3 w /\ valid w = valid v /\ forall i, (i < 3)%nat -> co w i = turn k theta (co v) i in
  turns 0%nat (rotateX v theta) /\ turns 1%nat (rotateY v theta) /\ turns 2%nat (rotateZ v theta).
Proof.
  intros eps v theta D turns. split; [|split].
  - exact (turn_axes eps v 0 theta D ltac:(lia)).
  - exact (turn_axes eps v 1 theta D ltac:(lia)).
  - exact (turn_axes eps v 2 theta D ltac:(lia)).
Qed.
Print Assumptions C67_vector.

(** rotationX, rotationY, rotationZ make the matrix of the same turn; v * m and v.rotate(m) turn forwards,
    m * v turns backwards *)
Theorem C67_matrix : forall (eps : Epsilon) theta,
  let turns k (r : outcome (rotmatrix R)) := exists m, r = Ret m /\ mvalid m = true /\ parity m = false /\ forall (v : vector R) i, (i < 3)%nat ->
     co (op_vm 3 v m) i = turn k theta (co v) i /\ co (vec_rotate 3 v m) i = turn k theta (co v) i /\ co (op_mv 3 m v) i = turn k (- theta) (co v) i in
  turns 0%nat (rot_x theta) /\ turns 1%nat (rot_y theta) /\ turns 2%nat (rot_z theta).
Proof.
  intros eps theta turns.
  assert (X : forall k, (k < 3)%nat -> turns k (rot_plane (H := Rnum eps) 3 ((k + 1) mod 3) ((k + 2) mod 3) theta)).
  { intros k Hk. destruct (turn_matrix eps k theta Hk) as (m & E & V & F & A). exists m. split; [exact E|]. split; [exact V|]. split; [exact F|]. intros v i Hi. destruct (A v) as [A1 A2]. split; [exact (A1 i Hi)|]. split; [exact (A1 i Hi)|exact (A2 i Hi)]. }
  split; [exact (X 0%nat ltac:(lia))|]. split; [exact (X 1%nat ltac:(lia))|exact (X 2%nat ltac:(lia))].
Qed.
Print Assumptions C67_matrix.

(** Quaternion::rotation(k, theta), and rotation about a vector along axis k *)
Theorem C67_quaternion : forall (eps : Epsilon) old (v : vector R) k theta, 0 < (eps : R) <= 1 -> dims 3 v -> (k < 3)%nat ->
  qvalid (quat_axis old (Z.of_nat k) theta) = true /\ unit_quat (quat_axis (H := Rnum eps) old (Z.of_nat k) theta) /\
  dist 3 (co (vec_rotate_q v (quat_axis old (Z.of_nat k) theta))) (turn k theta (co v)) <= 14 * eps * Rmin 1 (norm 3 (co v)).
Proof.
  intros eps old v k theta He Dv Hk.
  assert (B : ((Z.of_nat k <? 0)%Z || (2 <? Z.of_nat k)%Z) = false) by (rewrite orb_false_iff, !Z.ltb_ge; lia).
  assert (S2 : cos (theta / 2) * cos (theta / 2) + sin (theta / 2) * sin (theta / 2) = 1) by (pose proof (sin2_cos2 (theta / 2)) as Q; unfold Rsqr in Q; lra).
  assert (V : qvalid (quat_axis (H := Rnum eps) old (Z.of_nat k) theta) = true) by (unfold quat_axis; rewrite B; reflexivity).
  split; [exact V|]. set (axis := mkC (tab 3 (fun i => if Nat.eqb i k then 1 else 0)) true : vector R).
  assert (E : quat_axis (H := Rnum eps) old (Z.of_nat k) theta = quat_rotation old axis theta).
  { unfold quat_axis, quat_rotation. rewrite B, mag_norm.
    assert (N : norm 3 (co axis) = 1).
    { unfold norm. rewrite norm2_3. unfold axis. rewrite !(co_tab 3) by lia. match goal with |- sqrt ?x = _ => replace x with 1; [apply sqrt_1|] end. destruct k as [|[|[|]]]; try lia; cbn; ring. }
    rewrite N. cbn [nltb neps Rnum]. rewrite Rlt_bool_false by lra. rewrite Nat2Z.id. f_equal. unfold axis, vec_scale. cbn [valid]. f_equal. unfold tab. apply map_ext_in. intros i I. apply in_seq in I.
    unfold at_, get. cbn [el]. fold (tab 3 (fun i => if Nat.eqb i k then 1 else 0)). change (nth i (tab 3 (fun i0 : nat => if Nat.eqb i0 k then 1 else 0)) n0) with (co axis i). unfold axis. rewrite co_tab by lia. cbn [nmul ndiv nsin n0 n2 nofZ Rnum]. destruct (Nat.eqb i k); [field|ring]. }
  rewrite E in *. split; [apply (rotation_unit eps old axis theta (proj1 He) V)|].
  rewrite (dist_ext 3 _ _ (co (vec_rotate_q v (quat_rotation old axis theta))) (rodrigues (co axis) theta (co v))).
  - apply (rotation_tol eps old axis theta); auto; lra.
  - auto.
  - intros i Hi. symmetry. apply (turn_rodrigues k 1); auto; [lra|]. intros j Hj. unfold axis. now rewrite co_tab by auto.
Qed.
Print Assumptions C67_quaternion.

(** Any axis: Quaternion::rotation(axis, theta) and Vector::rotate(axis, theta) are within the tolerance of
    Rodrigues' formula, with no condition on Dot and Cross *)
Theorem C67_any_axis : forall (eps : Epsilon) old (v axis : vector R) theta, 0 < (eps : R) -> dims 3 v -> dims 3 axis ->
  (forall q, quat_rotation old axis theta = q -> qvalid q = true -> unit_quat q /\ 
     dist 3 (co (vec_rotate_q v q)) (rodrigues (co axis) theta (co v)) <= 14 * eps * Rmin 1 (norm 3 (co v))) /\
  (forall w, vec_rotate_axis v axis theta = Ret w -> valid w = valid v && valid axis /\ dist 3 (co w) (rodrigues (co axis) theta (co v)) <= 8 * eps) /\
  (vec_rotate_axis v axis theta = AssertFail <-> norm 3 (co axis) = 0) /\
  (qvalid (quat_rotation old axis theta) = true <-> eps <= norm 3 (co axis) /\ valid axis = true).
Proof.
  intros eps old v axis theta He Dv Da. split; [|split; [|split]].
  - intros q E V. split; [subst q; apply (rotation_unit eps old axis theta He V)|apply (rotation_tol eps old axis theta); auto].
  - intros w E. destruct (rotate_axis_tol eps v axis theta w ltac:(lra) Dv Da E) as (_ & V & T). auto.
  - unfold vec_rotate_axis, oassert. rewrite sqr_mag_norm2. unfold n0. cbn [neqb nofZ Rnum]. pose proof (norm_sqr 3 (co axis)) as N2.
    destruct (Req_bool_spec (norm2 3 (co axis)) 0) as [Z|Z]; cbn [negb]; split; auto; try discriminate; intros H.
    + nra.
    + rewrite H in N2. lra.
  - unfold quat_rotation. rewrite mag_norm. cbn [nltb Rnum neps]. destruct (Rlt_bool_spec (norm 3 (co axis)) eps); cbn [qvalid]; split; try discriminate; try (intros [? ?]; lra); auto. intros [_ ?]; auto.
Qed.
Print Assumptions C67_any_axis.

(** In the plane *)
Theorem C67_plane : forall (eps : Epsilon) (v : vector R) theta, dims 2 v ->
  (exists w, rotate2 v theta = Ret w /\ dims 2 w /\ valid w = valid v /\ forall i, (i < 2)%nat -> co w i = turn2 theta (co v) i) /\
  (exists m, rot_2d theta = Ret m /\ mvalid m = true /\ parity m = false /\ forall i, (i < 2)%nat ->
     co (op_vm 2 v m) i = turn2 theta (co v) i /\ co (op_mv 2 m v) i = turn2 (- theta) (co v) i).
Proof.
  intros eps v theta D. destruct v as [l b]. unfold dims in D. cbn [el] in D. destruct l as [|x [|y [|]]]; try discriminate D. split.
  - eexists. split; [reflexivity|]. split; [reflexivity|]. split; [reflexivity|]. intros i Hi. destruct i as [|[|]]; try lia; unfold co, turn2; cbn -[Rmult Rplus Rminus]; ring.
  - eexists. split; [reflexivity|]. split; [reflexivity|]. split; [reflexivity|]. intros i Hi. unfold turn2. rewrite cos_neg, sin_neg. destruct i as [|[|]]; try lia; unfold co; cbn -[Rmult Rplus Rminus]; split; ring.
Qed.
Print Assumptions C67_plane.

(** mirrorX, mirrorY, mirrorZ of vectors, and the matrices of that name *)
Theorem C67_mirrors : forall (eps : Epsilon) n (v : vector R), dims n v ->
  let mirrors k (r : outcome (vector R)) := exists w, r = Ret w /\ dims n w /\ valid w = valid v /\ forall i, (i < n)%nat -> co w i = mirrored k (co v) i in
  let mirror_matrix k (r : outcome (rotmatrix R)) := exists m, r = Ret m /\ mvalid m = true /\ parity m = true /\ forall i, (i < n)%nat ->
     co (op_vm n v m) i = mirrored k (co v) i /\ co (op_mv n m v) i = mirrored k (co v) i in
  ((0 < n)%nat -> mirrors 0%nat (mirror_x n v) /\ mirror_matrix 0%nat (rot_mirror_x n)) /\
  ((1 < n)%nat -> mirrors 1%nat (mirror_y n v) /\ mirror_matrix 1%nat (rot_mirror_y n)) /\
  (n = 3%nat -> mirrors 2%nat (mirror_z v) /\ mirror_matrix 2%nat rot_mirror_z).
Proof.
  intros eps n v D mirrors mirror_matrix.
  assert (A : forall k, (k < n)%nat -> mirrors k (mirror_axis (H := Rnum eps) n v k) /\ mirror_matrix k (rot_mirror_axis (H := Rnum eps) n k)).
  { intros k Hk. split.
    - destruct (mirror_axis_all eps n v k D Hk) as (w & E & Dw & C & _). exists w. split; [exact E|]. split; [exact Dw|]. split.
      + unfold mirror_axis in E. destruct (Nat.ltb k n); [|discriminate E]. cbn [obind] in E. destruct (oset (el v) k (at_ v k * - n1)%num) as [l| | |]; try discriminate E. cbn in E. injection E as <-. reflexivity.
      + intros i Hi. rewrite C by auto. unfold mirrored. rewrite Nat.eqb_sym. reflexivity.
    - destruct (rot_mirror_axis (H := Rnum eps) n k) as [m| | |] eqn:E; try (exfalso; unfold rot_mirror_axis in E; apply Nat.ltb_lt in Hk; rewrite Hk in E; discriminate E).
      exists m. split; [reflexivity|]. destruct (mirror_axis_ent eps n _ _ E) as (_ & _ & Em & Fm & Vm). split; [exact Vm|]. split; [exact Fm|]. intros i Hi.
      assert (M1 : co (op_vm n v m) i = mirrored k (co v) i). { change (op_vm n v m) with (vec_rotate n v m). rewrite (mirror_axis_acts eps n k m v E i Hi). unfold mirrored. rewrite Nat.eqb_sym. reflexivity. }
      split; [exact M1|]. rewrite <- M1. change (op_vm n v m) with (vec_rotate n v m). unfold op_mv. rewrite (prod_mv_co eps), (rotate_co eps) by auto. unfold mapply, mtr. apply Rsum_ext. intros j Hj. rewrite !Em by auto. unfold rank2. replace (delta i j) with (delta j i) by (unfold delta; rewrite Nat.eqb_sym; reflexivity). ring. }
  split; [intros Hn; exact (A 0%nat Hn)|]. split; [intros Hn; exact (A 1%nat Hn)|]. intros ->. exact (A 2%nat ltac:(lia)).
Qed.
Print Assumptions C67_mirrors.

(** The operators: (v * m1) * m2 = v * (m1 * m2), m1 * (m2 * v) = (m1 * m2) * v, and m * (v * m) = v *)
Theorem C67_operators : forall (eps : Epsilon) n m1 m2 m (v : vector R), valid_orth n m1 -> valid_orth n m2 -> mvalid m1 = true -> mvalid m2 = true -> dims n v -> op_mm n m1 m2 = Ret m ->
  op_vm n (op_vm n v m1) m2 = op_vm n v m /\ op_mv n m1 (op_mv n m2 v) = op_mv n m v /\ op_mv n m1 (op_vm n v m1) = v /\ op_vm n (op_mv n m1 v) m1 = v.
Proof.
  intros eps n m1 m2 m v O1 O2 V1 V2 D E. unfold op_mm in E.
  destruct (rotate_inverse eps n m1 v V1 (O1 V1) D) as (I1 & _ & I2).
  split; [exact (rotate_rotate eps n m1 m2 m v O1 O2 E)|]. split; [|split; [exact I1|exact I2]].
  destruct (prod_spec eps n m1 m2 m O1 O2 E) as (Dm & Em & _ & Vm).
  apply (coords_eq n); try apply dims_tab.
  - cbn. rewrite Vm. destruct (mvalid m1), (mvalid m2), (valid v); reflexivity.
  - intros i Hi. unfold op_mv. rewrite !(prod_mv_co eps) by auto.
    rewrite (mapply_ext n (ent m1) (ent m1) _ (mapply n (ent m2) (co v)) i Hi (meq_refl n _)) by (intros; apply (prod_mv_co eps); auto).
    rewrite <- mapply_mmul. apply mapply_ext; auto. apply meq_sym. exact Em.
Qed.
Print Assumptions C67_operators.

(** Parallel(v1, v2) with tolerance 0: the vectors lie on one line through the origin *)
Theorem C67_parallel_exact : forall n (a b : vector R), (0 < n)%nat -> dims n a -> dims n b ->
  (parallel2 (H := Rnum 0) n a b = true <-> (forall i, (i < n)%nat -> co b i = 0) \/ exists k, forall i, (i < n)%nat -> co a i = k * co b i).
Proof. intros n a b Hn Da Db. exact (proj1 (C66_parallel_exact n a b Hn Da Db)). Qed.
Print Assumptions C67_parallel_exact.

(** ZERO(): valid, and zero in every coordinate, whatever the memory held before *)
Theorem C67_zero : forall T (N : Num T) n (contents : list T), length contents = n ->
  exists z, zero_primitive n contents = Ret z /\ z = vec_zero n /\ valid z = true /\ length (el z) = n /\ forall i, (i < n)%nat -> nth_error (el z) i = Some n0.
Proof.
  intros T N n contents L.
  assert (G : forall k (l : list T), (k <= length l)%nat -> forall i, (i < length l)%nat -> nth_error (fold_left (fun l i => upd l i n0) (seq 0 k) l) i = if Nat.ltb i k then Some n0 else nth_error l i).
  { intros k. induction k as [|k IH]; intros l Hk i Hi; [reflexivity|]. rewrite seq_S, fold_left_app. cbn [fold_left plus].
    assert (Len : forall k (l : list T), length (fold_left (fun l i => upd l i n0) (seq 0 k) l) = length l).
    { clear. intros k l. generalize (seq 0 k). intros s. revert l. induction s as [|a s IH]; intros l; cbn; [reflexivity|]. rewrite IH. apply upd_length. }
    destruct (Nat.eqb_spec i k) as [->|Ne].
    - rewrite nth_error_upd_same by (rewrite Len; lia). destruct (Nat.ltb_spec k (S k)); [reflexivity|lia].
    - rewrite nth_error_upd_other by lia. rewrite IH by lia. destruct (Nat.ltb_spec i k), (Nat.ltb_spec i (S k)); try reflexivity; lia. }
  assert (Len : length (fold_left (fun l i => upd l i n0) (seq 0 n) contents) = n).
  { rewrite <- L at 2. generalize (seq 0 n). intros s. clear. revert contents. induction s as [|a s IH]; intros l; cbn; [reflexivity|]. rewrite IH. apply upd_length. }
  unfold zero_primitive. rewrite (proj2 (Nat.leb_le n (length contents))) by lia. eexists. split; [reflexivity|].
  assert (Z : forall i, (i < n)%nat -> nth_error (fold_left (fun l i => upd l i n0) (seq 0 n) contents) i = Some n0).
  { intros i Hi. rewrite G by lia. destruct (Nat.ltb_spec i n); [reflexivity|lia]. }
  cbn [el valid]. split; [|auto]. unfold vec_zero. f_equal. apply nth_ext with (d := n0) (d' := n0).
  - rewrite Len. unfold tab. now rewrite map_length, seq_length.
  - intros i Hi. rewrite Len in Hi. rewrite (nth_error_nth _ _ n0 (Z i Hi)). now rewrite nth_tab by auto.
Qed.
Print Assumptions C67_zero.

Example C67_example : exists m1 m2 : rotmatrix R, rot_x (H := Rnum 0) 1 = Ret m1 /\ rot_z (H := Rnum 0) 2 = Ret m2 /\ mvalid m1 = true /\ mvalid m2 = true.
Proof. do 2 eexists. repeat split; reflexivity. Qed.
