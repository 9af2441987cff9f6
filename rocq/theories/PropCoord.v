(** C36: shapes in the coordinates of a parent frame and back. *)
From Coq Require Import ZArith NArith Reals Bool List Lia Lra Psatz.
From Flocq Require Import Core.Raux.
From Verif Require Import Base Scalar ConstModel VecModel RotModel QuatModel ShapeModel PolyModel RSpec VecSpec RotSpec QuatSpec ShapeSpec MotionSpec RLib MatLib OrdLib VecProofs VecProofs2 VecProofs3 VecProofs4 VecProofs5 RotProofs2 RotProofs3 QuatProofs QuatProofs2 QuatProofs3 QuatProofs4 QuatProofs5 QuatProofs6 QuatProofs7 PropQuat ShapeProofs3 BallProofs SphereProofs RbProofs RbProofs2 MotionProofs MotionProofs2 PropMotion.
Import ListNotations.
Open Scope R_scope.

(** The maps of points: they are rigid motions and inverse to each other. *)
Lemma rigid_parent n m o : orthogonal n (ent m) -> rigid n (parent n m o).
Proof. intros O. exists (ent m), o. split; auto. intros x. apply pteq_refl. Qed.
Lemma rigid_local n m o : orthogonal n (ent m) -> rigid n (local n m o).
Proof.
  intros O. exists (mtr (ent m)), (fun i => - Rsum n (fun j => ent m i j * o j)). split; [now apply orthogonal_tr|].
  intros x i Hi. unfold local, mtr. rewrite (Rsum_ext n _ (fun j => x j * ent m i j - ent m i j * o j)) by (intros; ring). rewrite Rsum_minus. ring.
Qed.
Lemma parent_co (eps : Epsilon) n (x o : coords R) m : pteq n (co (point_to_parent n x o m)) (parent n m (co o) (co x)).
Proof.
  intros i Hi. unfold point_to_parent, parent. rewrite add_co by auto. f_equal. rewrite (prod_vm_co eps) by auto. apply Rsum_ext. intros j Hj. rewrite sub_co by auto.
  unfold vec_zero. rewrite co_tab by auto. unfold n0. cbn [nofZ Rnum]. ring.
Qed.
Lemma local_co (eps : Epsilon) n (x o : coords R) m : pteq n (co (point_to_local n x o m)) (local n m (co o) (co x)).
Proof.
  intros i Hi. unfold point_to_local, local. rewrite add_co by auto. rewrite prod_mv_co by auto. unfold vec_zero. rewrite co_tab by auto. unfold n0. cbn [nofZ Rnum]. rewrite Rplus_0_l.
  unfold mapply. apply Rsum_ext. intros j Hj. rewrite sub_co by auto. ring.
Qed.
Theorem C36_maps : forall (eps : Epsilon) n (x o : coords R) m, orthogonal n (ent m) ->
  pteq n (co (point_to_parent n x o m)) (parent n m (co o) (co x)) /\ pteq n (co (point_to_local n x o m)) (local n m (co o) (co x)) /\
  (forall y, pteq n (parent n m (co o) (local n m (co o) y)) y) /\ (forall y, pteq n (local n m (co o) (parent n m (co o) y)) y).
Proof.
  intros eps n x o m O. split; [apply (parent_co eps)|]. split; [apply (local_co eps)|]. split; intros y i Hi.
  - unfold parent, local. rewrite (Rsum_ext n _ (fun j => Rsum n (fun k => (y k - co o k) * ent m j k * ent m j i))).
    2: { intros j Hj. rewrite <- Rsum_scal_r. apply Rsum_ext. intros. ring. }
    rewrite Rsum_swap. rewrite (Rsum_ext n _ (fun k => (y k - co o k) * delta k i)).
    2: { intros k Hk. rewrite (Rsum_ext n _ (fun j => (y k - co o k) * (ent m j k * ent m j i))) by (intros; ring). rewrite Rsum_scal_l. f_equal.
         pose proof (orthogonal_cols n (ent m) O k i Hk Hi) as C. unfold mmul, mtr in C. exact C. }
    rewrite (Rsum_delta_r n _ i Hi). ring.
  - unfold parent, local. rewrite (Rsum_ext n _ (fun j => Rsum n (fun k => y k * (ent m k j * ent m i j)))).
    2: { intros j Hj. replace (co o j + Rsum n (fun k => y k * ent m k j) - co o j) with (Rsum n (fun k => y k * ent m k j)) by ring. rewrite <- Rsum_scal_l. apply Rsum_ext. intros. ring. }
    rewrite Rsum_swap. rewrite (Rsum_ext n _ (fun k => y k * delta k i)).
    2: { intros k Hk. rewrite Rsum_scal_l. f_equal. pose proof (O k i Hk Hi) as C. unfold mmul, mtr in C. exact C. }
    now rewrite (Rsum_delta_r n _ i Hi).
Qed.

(** ** Segment and Ball *)
Theorem C36_segment : forall (eps : Epsilon) n (s : segment R) o m, dims n (end1 s) -> dims n (end2 s) -> dims n o -> valid o = true -> mvalid m = true -> orthogonal n (ent m) ->
  seg_moved n (parent n m (co o)) s (seg_to_parent n s o m) /\ seg_moved n (local n m (co o)) s (seg_to_local n s o m) /\
  seg_to_local n (seg_to_parent n s o m) o m = s /\ seg_to_parent n (seg_to_local n s o m) o m = s.
Proof.
  intros eps n s o m D1 D2 Do V Vm O. split; [apply seg_image; [now apply rigid_parent|apply (parent_co eps)|apply (parent_co eps)]|].
  split; [apply seg_image; [now apply rigid_local|apply (local_co eps)|apply (local_co eps)]|]. destruct s as [a b]. unfold seg_to_local, seg_to_parent. cbn [end1 end2] in *.
  destruct (C36_point_matrix eps n a o m); auto. destruct (C36_point_matrix eps n b o m); auto. split; congruence.
Qed.
Theorem C36_ball : forall (eps : Epsilon) n (b : ball R) o m, dims n (center b) -> dims n o -> valid o = true -> mvalid m = true -> orthogonal n (ent m) -> 0 <= radius b ->
  ball_moved n (parent n m (co o)) b (ball_to_parent n b o m) /\ ball_moved n (local n m (co o)) b (ball_to_local n b o m) /\
  ball_to_local n (ball_to_parent n b o m) o m = b /\ ball_to_parent n (ball_to_local n b o m) o m = b.
Proof.
  intros eps n [c r] o m D Do V Vm O Hr. cbn [center radius] in *.
  assert (Mk : forall x : coords R, ball_make x r = mkBall x r). { intros x. unfold ball_make. assert (nltb r n0 = false) as ->; auto. unfold n0. cbn [nltb nofZ Rnum]. now apply Rlt_bool_false. }
  unfold ball_to_parent, ball_to_local. cbn [center radius]. rewrite !Mk. cbn [center radius]. rewrite ?Mk.
  split; [apply ball_image; [now apply rigid_parent|apply (parent_co eps)|reflexivity]|]. split; [apply ball_image; [now apply rigid_local|apply (local_co eps)|reflexivity]|].
  destruct (C36_point_matrix eps n c o m); auto. split; congruence.
Qed.

(** ** Polygon<2>, and any list of corners *)
Theorem C36_corners : forall (eps : Epsilon) n (l : list (coords R)) o m, (forall c, In c l -> dims n c) -> dims n o -> valid o = true -> mvalid m = true -> orthogonal n (ent m) ->
  list_moved n true (parent n m (co o)) l (poly_to_parent n l o m) /\ list_moved n true (local n m (co o)) l (poly_to_local n l o m) /\
  poly_to_local n (poly_to_parent n l o m) o m = l /\ poly_to_parent n (poly_to_local n l o m) o m = l.
Proof.
  intros eps n l o m D Do V Vm O. split; [|split; [|split]].
  - apply map_moved. intros c _. split; [apply (parent_co eps)|]. cbn. rewrite V, Vm. now destruct (valid c).
  - apply map_moved. intros c _. split; [apply (local_co eps)|]. cbn. rewrite V, Vm. now destruct (valid c).
  - unfold poly_to_local, poly_to_parent. rewrite map_map. rewrite <- map_id. apply map_ext_in. intros c I. apply (C36_point_matrix eps n c o m); auto.
  - unfold poly_to_local, poly_to_parent. rewrite map_map. rewrite <- map_id. apply map_ext_in. intros c I. apply (C36_point_matrix eps n c o m); auto.
Qed.

(** ** Polygon<dim> with a matrix *)
Theorem C36_polygon : forall (eps : Epsilon) n (p : polygon R) o m, dims n (porigin (pplane p)) -> dims n (pax0 (pplane p)) -> dims n (pax1 (pplane p)) ->
  dims n o -> valid o = true -> mvalid m = true -> orthogonal n (ent m) ->
  pg_moved eps n (parent n m (co o)) p (pg_to_parent n p o m) /\ pg_moved eps n (local n m (co o)) p (pg_to_local n p o m) /\
  pg_to_local n (pg_to_parent n p o m) o m = p /\ pg_to_parent n (pg_to_local n p o m) o m = p.
Proof.
  intros eps n [[og a0 a1] l] o m Dg D0 D1 Do V Vm O. cbn [pplane porigin pax0 pax1] in *.
  destruct (C36_point_matrix eps n og o m) as [E1 E2]; auto.
  assert (I : forall v, dims n v -> prod_mv n m (vec_rotate n v m) = v /\ vec_rotate n (prod_mv n m v) m = v).
  { intros v Dv. split; [apply (rotate_inverse eps n m v Vm O Dv)|apply (rotate_inverse eps n m v Vm O Dv)]. }
  split; [|split; [|split]].
  - apply plane_image; [now apply rigid_parent|]. apply (plane_linear n _ (ent m) (co o)); cbn [pplane porigin pax0 pax1 orient_to_parent].
    + intros x. apply pteq_refl.
    + cbn. rewrite V, Vm. now destruct (valid og).
    + cbn. rewrite Vm. now destruct (valid a0).
    + cbn. rewrite Vm. now destruct (valid a1).
    + apply (parent_co eps).
    + intros _ i Hi. now apply (prod_vm_co eps).
    + intros _ i Hi. now apply (prod_vm_co eps).
  - apply plane_image; [now apply rigid_local|]. apply (plane_linear n _ (mtr (ent m)) (fun i => - Rsum n (fun j => ent m i j * co o j))); cbn [pplane porigin pax0 pax1 orient_to_local].
    + intros x i Hi. unfold local, mtr. rewrite (Rsum_ext n _ (fun j => x j * ent m i j - ent m i j * co o j)) by (intros; ring). rewrite Rsum_minus. ring.
    + cbn. rewrite V, Vm. now destruct (valid og).
    + cbn. rewrite Vm. now destruct (valid a0).
    + cbn. rewrite Vm. now destruct (valid a1).
    + apply (local_co eps).
    + intros _ i Hi. rewrite prod_mv_co by auto. unfold mapply, mtr. apply Rsum_ext. intros; ring.
    + intros _ i Hi. rewrite prod_mv_co by auto. unfold mapply, mtr. apply Rsum_ext. intros; ring.
  - unfold pg_to_local, pg_to_parent, orient_to_local, orient_to_parent. cbn [pplane pcorners porigin pax0 pax1]. rewrite E1, (proj1 (I a0 D0)), (proj1 (I a1 D1)). reflexivity.
  - unfold pg_to_local, pg_to_parent, orient_to_local, orient_to_parent. cbn [pplane pcorners porigin pax0 pax1]. rewrite E2, (proj2 (I a0 D0)), (proj2 (I a1 D1)). reflexivity.
Qed.

(** ** AxisBox: pure translations *)
Lemma identity_orth n : orthogonal n (ent (rot_identity (H := Rnum 0) n)).
Proof. apply (orthogonal_ext n delta); [intros i j Hi Hj; symmetry; now apply (identity_ent 0)|apply orthogonal_delta]. Qed.
Theorem C36_box : forall (eps : Epsilon) n (b : axisbox R) o, dims n (low b) -> dims n (high b) -> dims n o -> valid o = true ->
  (forall x, in_box n (box_to_parent n b o) (shifted (co o) x) <-> in_box n b x) /\
  box_to_local n (box_to_parent n b o) o = b /\ box_to_parent n (box_to_local n b o) o = b.
Proof.
  intros eps n [l h] o Dl Dh Do V. cbn [low high] in *. unfold box_to_parent, box_to_local, box_corners. cbn [low high].
  assert (O : orthogonal n (ent (rot_identity n))) by (apply (orthogonal_ext n delta); [intros i j Hi Hj; symmetry; now apply (identity_ent eps)|apply orthogonal_delta]).
  destruct (C36_point_matrix eps n l o (rot_identity n)) as [E1 E2]; auto. destruct (C36_point_matrix eps n h o (rot_identity n)) as [F1 F2]; auto.
  split; [|split; congruence]. intros x.
  assert (P : forall y : coords R, pteq n (co (point_to_parent n y o (rot_identity n))) (shifted (co o) (co y))).
  { intros y i Hi. rewrite (parent_co eps n y o _ i Hi). unfold parent, shifted. rewrite (Rsum_ext n _ (fun j => co y j * delta j i)) by (intros j Hj; now rewrite (identity_ent eps n j i Hj Hi)). rewrite (Rsum_delta_r n _ i Hi). ring. }
  split; intros I i Hi; specialize (I i Hi); cbn [low high] in *; rewrite (P l i Hi), (P h i Hi) in *; unfold shifted in *; lra.
Qed.

(** ** RotBox *)
Lemma parent_rb n (r r' : rotbox R) m o s : pteq n (co (corner0 r')) (parent n m o (co (corner0 r))) -> rsize r' = rsize r ->
  meq n (ent (orient r')) (mmul n (ent (orient r)) (ent m)) -> pteq n (rb_at n r' s) (parent n m o (rb_at n r s)).
Proof.
  intros Ec Es Em i Hi. unfold rb_at at 1. rewrite (Ec i Hi), Es. unfold parent.
  rewrite (Rsum_ext n (fun k => s k * co (rsize r) k * ent (orient r') k i) (fun k => Rsum n (fun j => (s k * co (rsize r) k * ent (orient r) k j) * ent m j i))).
  2: { intros k Hk. rewrite (Em k i Hk Hi). unfold mmul. rewrite <- Rsum_scal_l. apply Rsum_ext. intros. ring. }
  rewrite Rsum_swap. rewrite Rplus_assoc, <- Rsum_plus. f_equal. apply Rsum_ext. intros j Hj. unfold rb_at. rewrite Rsum_scal_r. ring.
Qed.
Theorem C36_rotbox_parent : forall (eps : Epsilon) n (r r' : rotbox R) o m, valid_orth n (orient r) -> valid o = true -> mvalid m = true -> orthogonal n (ent m) ->
  rb_to_parent n r o m = Ret r' -> rb_moved eps n (parent n m (co o)) r r' /\ rb_valid r' = rb_valid r.
Proof.
  intros eps n r r' o m Or V Vm O E. unfold rb_to_parent in E. destruct (prod n (orient r) m) as [q| | |] eqn:P; try discriminate. cbn [obind] in E. injection E as <-.
  destruct (prod_spec eps n (orient r) m q Or (fun _ => O) P) as (D & Em & F & Vq). split.
  - apply rb_image; [now apply rigid_parent|]. intros s. apply parent_rb; auto. apply (parent_co eps).
  - unfold rb_valid. cbn. rewrite Vq, V, Vm. destruct (valid (corner0 r)), (valid (rsize r)), (mvalid (orient r)); reflexivity.
Qed.
(** toLocalCoords with a matrix multiplies the orientation by the matrix on the wrong side
    and not by its inverse: a unit square turned by a quarter goes to the parent frame of
    a quarter turn and does not come back. *)
Definition unit_square : rotbox R := mkRB (mkC [0; 0] true) (mkC [2; 1] true) (rot_identity (H := Rnum 0) 2).
Theorem C36_rotbox_local_refuted : exists o r1 r2 c c2, orthogonal 2 (ent quarter) /\ mvalid quarter = true /\ valid_orth 2 (orient unit_square) /\ rb_valid unit_square = true /\ valid o = true /\
  rb_to_parent (H := Rnum 0) 2 unit_square o quarter = Ret r1 /\ rb_to_local (H := Rnum 0) 2 r1 o quarter = Ret r2 /\
  rb_corner (H := Rnum 0) 2 unit_square 1 = Ret c /\ rb_corner (H := Rnum 0) 2 r2 1 = Ret c2 /\ co c 0 = 2 /\ co c2 0 = -2.
Proof.
  destruct C48_example as (O & _). assert (Oi : valid_orth 2 (orient unit_square)) by (intros _; apply identity_orth).
  set (o := mkC [0; 0] true : coords R). exists o.
  assert (P1 : exists q1, prod (H := Rnum 0) 2 (orient unit_square) quarter = Ret q1 /\ exists q2, prod (H := Rnum 0) 2 quarter q1 = Ret q2) by (eexists; split; [reflexivity|eexists; reflexivity]).
  destruct P1 as (q1 & P1 & q2 & P2). pose proof (prod_spec 0 2 _ _ _ Oi (fun _ => O) P1) as Q1. pose proof (prod_result_orth 2 _ _ _ _ _ Q1 Oi (fun _ => O)) as O1. destruct Q1 as (D1 & M1 & _ & _).
  destruct (prod_spec 0 2 _ _ _ (fun _ => O) O1 P2) as (D2 & M2 & _ & _).
  remember (mkRB (point_to_parent (H := Rnum 0) 2 (corner0 unit_square) o quarter) (rsize unit_square) q1) as r1 eqn:R1.
  remember (mkRB (point_to_local (H := Rnum 0) 2 (corner0 r1) o quarter) (rsize r1) q2) as r2 eqn:R2.
  assert (E1 : rb_to_parent (H := Rnum 0) 2 unit_square o quarter = Ret r1) by (unfold rb_to_parent; rewrite P1, R1; reflexivity).
  assert (E2 : rb_to_local (H := Rnum 0) 2 r1 o quarter = Ret r2) by (unfold rb_to_local; rewrite R2, R1; cbn [orient]; rewrite P2; reflexivity).
  destruct (rb_corner_defined 0 2 unit_square 1) as [c C]; [reflexivity|]. destruct (rb_corner_defined 0 2 r2 1) as [c2 C2]; [reflexivity|].
  exists r1, r2, c, c2. split; auto. split; [reflexivity|]. split; auto. split; [reflexivity|]. split; [reflexivity|]. split; auto. split; auto. split; auto. split; auto.
  destruct (rb_corner_at 0 2 _ _ _ C) as [_ A]. destruct (rb_corner_at 0 2 _ _ _ C2) as [_ A2]. split.
  - rewrite (A 0%nat) by lia. unfold rb_at. cbn [Rsum]. change (orient unit_square) with (rot_identity (H := Rnum 0) 2). rewrite !(identity_ent 0) by lia. unfold bits, delta. cbn. lra.
  - rewrite (A2 0%nat) by lia. unfold rb_at. rewrite R2, R1. cbn [orient rsize corner0 Rsum]. rewrite !M2 by lia. unfold mmul. cbn [Rsum]. rewrite !M1 by lia. unfold mmul. cbn [Rsum]. change (orient unit_square) with (rot_identity (H := Rnum 0) 2). rewrite !(identity_ent 0) by lia.
    rewrite (local_co 0 2 _ _ _ 0%nat) by lia. unfold local. cbn [Rsum]. rewrite (parent_co 0 2 _ _ _ 0%nat), (parent_co 0 2 _ _ _ 1%nat) by lia. unfold parent. cbn [Rsum]. unfold bits, delta, ent, quarter, o, unit_square, co. cbn. lra.
Qed.

(** ** Quaternions *)
Definition exact_frame (eps : Epsilon) (q : quat R) (o x : coords R) : Prop :=
  exact_pair eps (qv q) (vec_sub 3 x (vec_zero 3)) /\ exact_pair eps (qv q) (vec_rotate_q (vec_sub 3 x (vec_zero 3)) q) /\
  exact_pair eps (qv q) (vec_sub 3 x o) /\ exact_pair eps (qv q) (vec_rotate_q (vec_sub 3 x o) (quat_inverse q)).
Lemma exact_frame_0 q o x : exact_frame 0 q o x. Proof. repeat split; apply exact_pair_0. Qed.
Lemma parent_q_matrix q o x i : (i < 3)%nat -> unit_quat q -> parent_q q o x i = o i + mapply 3 (ham_matrix (q4 q)) x i.
Proof.
  intros Hi U. pose proof (turned_q_matrix q (fun _ => 0) x i Hi U) as T. unfold turned_q in T. unfold parent_q. rewrite !Rplus_0_l in T.
  assert (Z : hpart (sandwich (q4 q) x) i = hpart (sandwich (q4 q) (fun j => x j - 0)) i).
  { unfold sandwich, pure. rewrite !Rminus_0_r. reflexivity. }
  rewrite Z, T. f_equal. apply mapply_ext; auto; [apply meq_refl|]. intros; ring.
Qed.
Lemma rigid_parent_q q o : unit_quat q -> rigid 3 (parent_q q o).
Proof.
  intros U. exists (mtr (ham_matrix (q4 q))), o. split; [apply orthogonal_tr, ham_matrix_orth, U|]. intros x i Hi. rewrite parent_q_matrix by auto. unfold mapply, mtr. cbn [Rsum]. ring.
Qed.
Lemma parent_q_co (eps : Epsilon) (x o : coords R) q : unit_quat q -> exact_pair eps (qv q) (vec_sub 3 x (vec_zero 3)) -> pteq 3 (co (point_to_parent_q x o q)) (parent_q q (co o) (co x)).
Proof.
  intros U E i Hi. unfold point_to_parent_q. rewrite add_co by auto. rewrite parent_q_matrix by auto. f_equal. rewrite ham_matrix_acts by auto. apply mapply_ext; auto; [apply meq_refl|].
  intros j Hj. rewrite sub_co by auto. unfold vec_zero. rewrite co_tab by auto. unfold n0. cbn [nofZ Rnum]. ring.
Qed.
Theorem C36_quaternion : forall (eps : Epsilon) (s : segment R) (b : ball R) o q, qdims q -> unit_quat q -> valid (qv q) = true -> dims 3 o -> valid o = true ->
  dims 3 (end1 s) -> dims 3 (end2 s) -> dims 3 (center b) -> 0 <= radius b ->
  exact_frame eps q o (end1 s) -> exact_frame eps q o (end2 s) -> exact_frame eps q o (center b) ->
  seg_moved 3 (parent_q q (co o)) s (seg_to_parent_q s o q) /\ seg_to_local_q (seg_to_parent_q s o q) o q = s /\ seg_to_parent_q (seg_to_local_q s o q) o q = s /\
  ball_moved 3 (parent_q q (co o)) b (ball_to_parent_q b o q) /\ ball_to_local_q (ball_to_parent_q b o q) o q = b /\ ball_to_parent_q (ball_to_local_q b o q) o q = b.
Proof.
  intros eps [a1 a2] [c r] o q D U V Do Vo D1 D2 Dc Hr (A1 & A2 & A3 & A4) (B1 & B2 & B3 & B4) (C1 & C2 & C3 & C4). cbn [end1 end2 center radius] in *.
  destruct (C36_point_quaternion eps a1 o q) as [E1 E2]; auto. destruct (C36_point_quaternion eps a2 o q) as [F1 F2]; auto. destruct (C36_point_quaternion eps c o q) as [G1 G2]; auto.
  assert (Mk : forall x : coords R, ball_make x r = mkBall x r). { intros x. unfold ball_make. assert (nltb r n0 = false) as ->; auto. unfold n0. cbn [nltb nofZ Rnum]. now apply Rlt_bool_false. }
  unfold ball_to_parent_q, ball_to_local_q, seg_to_parent_q, seg_to_local_q. cbn [center radius end1 end2]. rewrite !Mk. cbn [center radius]. rewrite ?Mk.
  split; [apply seg_image; [now apply rigid_parent_q|now apply (parent_q_co eps)|now apply (parent_q_co eps)]|]. split; [congruence|]. split; [congruence|].
  split; [apply ball_image; [now apply rigid_parent_q|now apply (parent_q_co eps)|reflexivity]|]. split; congruence.
Qed.
Lemma rot_rotate_q_dims (eps : Epsilon) m q m' : valid_orth 3 m -> unit_quat q -> (forall r b, (r < 3)%nat -> exact_pair eps (qv q) (mkC (tab 3 (ent m r)) b)) ->
  rot_rotate_q m q = Ret m' -> mdims 3 (me m').
Proof.
  intros O U E X. unfold rot_rotate_q in X. set (m0 := mkM _ _ _ _) in X.
  assert (D0 : mdims 3 (me m0)). { unfold m0. cbn [me]. split; [apply tab_length|]. intros i Hi. rewrite (nth_tab 3) by auto. apply tab_length. }
  assert (E0 : meq 3 (ent m0) (mmul 3 (ent m) (mtr (ham_matrix (q4 q))))).
  { intros r s Hr Hs. unfold ent at 1. unfold m0. cbn [me]. unfold rc. rewrite (nth_tab 3) by auto.
    change (co (vec_rotate_q (mkC (tab 3 (elem m r)) true) q) s = mmul 3 (ent m) (mtr (ham_matrix (q4 q))) r s).
    change (elem m) with (ent m). rewrite ham_matrix_acts by auto. unfold mapply, mmul, mtr. cbn [Rsum]. rewrite !co_tab by lia. ring. }
  destruct (check_norm_orthogonal eps 3 m0 m' D0) as (A & _); auto; [|now rewrite A].
  intros V. apply (orthogonal_ext 3 _ _ (meq_sym 3 _ _ E0)). apply orthogonal_mul; [|apply orthogonal_tr, ham_matrix_orth; auto].
  apply O. cbn in V. apply andb_true_iff in V. apply V.
Qed.
Theorem C36_rotbox_quaternion : forall (r r1 : rotbox R) o q, qdims q -> unit_quat q -> valid (qv q) = true -> dims 3 o -> valid o = true -> dims 3 (corner0 r) -> mdims 3 (me (orient r)) -> valid_orth 3 (orient r) ->
  rb_to_parent_q (H := Rnum 0) r o q = Ret r1 ->
  rb_moved 0 3 (parent_q q (co o)) r r1 /\
  forall r2, rb_to_local_q (H := Rnum 0) r1 o q = Ret r2 -> corner0 r2 = corner0 r /\ rsize r2 = rsize r /\ meq 3 (ent (orient r2)) (ent (orient r)).
Proof.
  intros r r1 o q D U V Do Vo Dc Dm Or E. unfold rb_to_parent_q in E. destruct (rot_rotate_q (orient r) q) as [m1| | |] eqn:M1; try discriminate. cbn [obind] in E. injection E as <-.
  destruct (rot_rotate_q_spec 0 (orient r) q m1 Dm Or U) as (Q1 & _ & W1); auto; [intros; apply exact_pair_0|].
  assert (D1 : mdims 3 (me m1)).
  { apply (rot_rotate_q_dims 0 (orient r) q m1); auto. intros; apply exact_pair_0. }
  assert (O1 : valid_orth 3 m1).
  { intros Vm. rewrite W1 in Vm. apply andb_prop in Vm. destruct Vm as [Vm _]. apply (orthogonal_ext 3 _ _ (meq_sym 3 _ _ Q1)). apply orthogonal_mul; [now apply Or|apply orthogonal_tr, ham_matrix_orth, U]. }
  split.
  - apply rb_image; [now apply rigid_parent_q|]. intros s i Hi. rewrite parent_q_matrix by auto. unfold rb_at. cbn [corner0 rsize orient].
    rewrite (parent_q_co 0) by (auto; apply exact_pair_0). rewrite parent_q_matrix by auto. unfold mapply. cbn [Rsum]. rewrite !Q1 by lia. unfold mmul, mtr. cbn [Rsum]. ring.
  - intros r2 E2. unfold rb_to_local_q in E2. cbn [orient corner0 rsize] in E2. destruct (rot_rotate_q m1 (quat_inverse q)) as [m2| | |] eqn:M2; try discriminate. cbn [obind] in E2. injection E2 as <-. cbn [corner0 rsize orient].
    split; [|split; [reflexivity|]].
    + apply (C36_point_quaternion 0 (corner0 r) o q); auto; apply exact_pair_0.
    + assert (Ui : unit_quat (quat_inverse (H := Rnum 0) q)) by (apply (inverse_unit 0); auto).
      destruct (rot_rotate_q_spec 0 m1 (quat_inverse (H := Rnum 0) q) m2 D1 O1 Ui) as (Q2 & _ & _); auto; [intros; apply exact_pair_0|].
      pose proof (ham_matrix_orth (q4 q) U) as OH.
      assert (HT : meq 3 (mtr (ham_matrix (q4 (quat_inverse (H := Rnum 0) q)))) (ham_matrix (q4 q))).
      { intros i j Hi Hj. rewrite (inverse_q4 0). unfold mtr, ham_matrix, hconj. cbn [hw hx hy hz]. destruct i as [|[|[|]]], j as [|[|[|]]]; try lia; cbn [nth]; ring. }
      pose proof (orthogonal_cols 3 _ OH) as OC. intros i j Hi Hj. rewrite Q2 by auto. unfold mmul. cbn [Rsum]. rewrite !Q1 by lia. rewrite !HT by lia. unfold mmul, mtr. cbn [Rsum].
      pose proof (OC 0%nat j ltac:(lia) Hj) as X0. pose proof (OC 1%nat j ltac:(lia) Hj) as X1. pose proof (OC 2%nat j ltac:(lia) Hj) as X2. unfold mmul, mtr in X0, X1, X2. cbn [Rsum] in X0, X1, X2.
      transitivity (ent (orient r) i 0 * delta 0 j + ent (orient r) i 1 * delta 1 j + ent (orient r) i 2 * delta 2 j); [rewrite <- X0, <- X1, <- X2; ring|].
      destruct j as [|[|[|]]]; try lia; unfold delta; cbn; ring.
Qed.
(** Polygon<3>::toParentCoords with a quaternion turns the first axis twice and the second
    not at all: the corners of the result are not the corners in parent coordinates. *)
Theorem C36_polygon_quaternion_refuted : exists c c', unit_quat qz /\ valid (qv qz) = true /\
  (exists a b, pg_add (H := Rnum 0) 3 (pg_default (H := Rnum 0) 3) 0 tri0 0 = Ret (true, a) /\ pg_add (H := Rnum 0) 3 a 1 tri1 0 = Ret (true, b) /\ pg_add (H := Rnum 0) 3 b 2 tri2 0 = Ret (true, tri3d)) /\
  pg_corner (H := Rnum 0) 3 tri3d 2 = Ret c /\ pg_corner (H := Rnum 0) 3 (pg_to_parent_q (H := Rnum 0) tri3d tri0 qz) 2 = Ret c' /\
  co (point_to_parent_q (H := Rnum 0) c tri0 qz) 0 = - (24 / 25) /\ co c' 0 = 0.
Proof.
  destruct (convert_def 0 3 (pplane tri3d) (mkC [0; 1] true)) as (c & C & _ & P). { split; [reflexivity|]. split; discriminate. }
  destruct (convert_def 0 3 (pplane (pg_to_parent_q (H := Rnum 0) tri3d tri0 qz)) (mkC [0; 1] true)) as (c' & C' & _ & P'). { split; [reflexivity|]. split; discriminate. }
  exists c, c'. split; [apply qz_unit|]. split; [reflexivity|]. split; [apply tri_built|]. split; [exact C|]. split; [exact C'|]. split.
  - rewrite (parent_q_co 0) by (try lia; try apply qz_unit; apply exact_pair_0). rewrite parent_q_matrix by (try lia; apply qz_unit). unfold mapply. cbn [Rsum]. rewrite (P 0%nat), (P 1%nat), (P 2%nat) by lia.
    unfold ham_matrix, q4, plane_at, tri3d, tri0, tri1, tri2, qz, co. cbn [hw hx hy hz qw qv el nth porigin pax0 pax1 valid pplane]. lra.
  - rewrite (P' 0%nat) by lia. unfold plane_at. cbn [pg_to_parent_q pplane orient_to_parent_q porigin pax0 pax1 tri3d].
    rewrite (parent_q_co 0) by (try lia; try apply qz_unit; apply exact_pair_0). rewrite parent_q_matrix by (try lia; apply qz_unit). unfold mapply. cbn [Rsum].
    change (valid tri2) with true. match goal with |- context [if ?b then _ else _] => change b with true end. unfold ham_matrix, q4, tri0, tri1, tri2, qz, co. cbn [hw hx hy hz qw qv el nth]. lra.
Qed.

(** ** Frames given by a box: the frame at its low corner, or at corner 0 along its axes *)
Theorem C36_frames : forall (eps : Epsilon) n (x : coords R) (l : list (coords R)) (p : polygon R) (b : axisbox R) (r : rotbox R), dims n x -> (forall c, In c l -> dims n c) ->
  dims n (porigin (pplane p)) -> dims n (pax0 (pplane p)) -> dims n (pax1 (pplane p)) -> dims n (low b) -> dims n (corner0 r) -> valid (low b) = true -> rb_valid r = true -> orthogonal n (ent (orient r)) ->
  (pteq n (co (point_to_parent_box n x b)) (shifted (co (low b)) (co x)) /\ pteq n (co (point_to_parent_rb n x r)) (parent n (orient r) (co (corner0 r)) (co x))) /\
  (point_to_local_box n (point_to_parent_box n x b) b = x /\ point_to_parent_box n (point_to_local_box n x b) b = x) /\
  (point_to_local_rb n (point_to_parent_rb n x r) r = x /\ point_to_parent_rb n (point_to_local_rb n x r) r = x) /\
  (poly_to_local_box n (poly_to_parent_box n l b) b = l /\ poly_to_parent_box n (poly_to_local_box n l b) b = l) /\
  (poly_to_local_rb n (poly_to_parent_rb n l r) r = l /\ poly_to_parent_rb n (poly_to_local_rb n l r) r = l) /\
  (pg_to_local_box n (pg_to_parent_box n p b) b = p /\ pg_to_parent_box n (pg_to_local_box n p b) b = p) /\
  (pg_to_local_rb n (pg_to_parent_rb n p r) r = p /\ pg_to_parent_rb n (pg_to_local_rb n p r) r = p).
Proof.
  intros eps n x l p b r Dx Dl Dp D0 D1 Db Dr Vb Vr O.
  assert (Vc : valid (corner0 r) = true /\ mvalid (orient r) = true). { unfold rb_valid in Vr. apply andb_prop in Vr. destruct Vr as [Vr ?]. apply andb_prop in Vr. tauto. } destruct Vc as [Vc Vm].
  assert (B : forall y : coords R, dims n y -> point_to_local_box n (point_to_parent_box n y b) b = y /\ point_to_parent_box n (point_to_local_box n y b) b = y).
  { intros y Dy. unfold point_to_local_box, point_to_parent_box. split; (apply (coords_eq n); [apply dims_tab|exact Dy|cbn; rewrite Vb; now destruct (valid y)|]); intros i Hi; rewrite !add_co, !sub_co, ?add_co, ?sub_co by auto; unfold vec_zero; rewrite !co_tab by auto; unfold n0; cbn [nofZ Rnum]; ring. }
  split; [split|].
  - intros i Hi. unfold point_to_parent_box, shifted. rewrite add_co, sub_co by auto. unfold vec_zero. rewrite co_tab by auto. unfold n0. cbn [nofZ Rnum]. ring.
  - apply (parent_co eps n x (corner0 r) (orient r)).
  - split; [apply B; auto|]. split; [apply (C36_point_matrix eps n x (corner0 r) (orient r)); auto|]. split; [|split; [|split]].
    + unfold poly_to_local_box, poly_to_parent_box. split; rewrite map_map; rewrite <- map_id; apply map_ext_in; intros c I; apply B; auto.
    + apply (C36_corners eps n l (corner0 r) (orient r)); auto.
    + destruct p as [[og a0 a1] pl]. cbn [pplane porigin pax0 pax1] in *. unfold pg_to_local_box, pg_to_parent_box, orient_to_local_box, orient_to_parent_box. cbn [pplane pcorners porigin pax0 pax1]. destruct (B og Dp) as [-> ->]. auto.
    + apply (C36_polygon eps n p (corner0 r) (orient r)); auto.
Qed.
Example C36_example : unit_quat qz /\ orthogonal 2 (ent quarter) /\ rb_valid unit_square = true /\ orthogonal 2 (ent (orient unit_square)) /\ dims 2 (corner0 unit_square) /\ exact_frame 0 qz tri1 tri2 /\
  exists r', rb_to_parent_q (H := Rnum 0) (mkRB tri1 tri2 (rot_identity (H := Rnum 0) 3)) tri1 qz = Ret r'.
Proof.
  split; [apply qz_unit|]. split; [apply C48_example|]. split; [reflexivity|]. split; [apply identity_orth|]. split; [reflexivity|]. split; [apply exact_frame_0|]. eexists. reflexivity.
Qed.
Print Assumptions C36_maps.
Print Assumptions C36_segment.
Print Assumptions C36_ball.
Print Assumptions C36_corners.
Print Assumptions C36_polygon.
Print Assumptions C36_box.
Print Assumptions C36_rotbox_parent.
Print Assumptions C36_rotbox_local_refuted.
Print Assumptions C36_quaternion.
Print Assumptions C36_rotbox_quaternion.
Print Assumptions C36_polygon_quaternion_refuted.
Print Assumptions C36_frames.
