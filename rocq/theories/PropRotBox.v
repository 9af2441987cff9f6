(** C45: rotated boxes, and their tests against the other shapes (C57). *)
From Coq Require Import ZArith NArith Reals Bool List Lia Lra Psatz.
From Flocq Require Import Core.Raux.
From Verif Require Import Base Scalar ConstModel VecModel RotModel QuatModel ShapeModel IntersectModel RSpec VecSpec RotSpec ShapeSpec RLib MatLib OrdLib VecProofs VecProofs2 RotProofs2 RotProofs3 ShapeProofs ShapeProofs2 ShapeProofs3 PropBox BallProofs PropBall SphereProofs PropSphere SegProofs SegProofs3 PropSeg RbProofs RbProofs2.
Import ListNotations.
Open Scope R_scope.

(** A rotated box whose orientation is a rotation. *)
Definition proper_rotbox (n : nat) (r : rotbox R) : Prop := mvalid (orient r) = true /\ orthogonal n (ent (orient r)).

(** The box of the examples: corner (1, 2), size (3, -4), turned by the 3-4-5 angle. *)
Definition rb345 : rotbox R := mkRB (mk2 1 2) (mk2 3 (-4)) (mkM [[3/5; 4/5]; [-(4/5); 3/5]] false true 1).
Lemma rb345_proper : proper_rotbox 2 rb345 /\ rb_thick 2 rb345 /\ rb_valid rb345 = true.
Proof.
  split; [split; [reflexivity|]|split; [|reflexivity]].
  - intros i j Hi Hj. destruct i as [|[|i]]; [| |lia]; destruct j as [|[|j]]; try lia; vm_compute; field.
  - intros k Hk. destruct k as [|[|k]]; [| |lia]; unfold rb345, co, mk2; cbn; lra.
Qed.

(** * Points *)
(** Intersect(rotbox, point): the point is in the box, up to epsilon along each edge. *)
Theorem C45_point_tolerance : forall (eps : Epsilon) n (r : rotbox R) (p : point R), orthogonal n (ent (orient r)) ->
  (i_rb_point n r p false = true <-> near_rotbox n eps r (co p)).
Proof. intros eps n r p O. now apply rb_point. Qed.
(** Without the tolerance it is the box. *)
Theorem C45_point_exact : forall n (r : rotbox R) (p : point R), orthogonal n (ent (orient r)) ->
  (i_rb_point (H := Rnum 0) n r p false = true <-> in_rotbox n r (co p)).
Proof. intros n r p O. rewrite (rb_point 0 n r O p). apply (near_rb_0 n r O). Qed.
(** "proper" excludes the boundary, for every epsilon; a flat box has no proper points. *)
Theorem C45_point_proper : forall (eps : Epsilon) n (r : rotbox R) (p : point R), orthogonal n (ent (orient r)) ->
  (rb_thick n r -> (i_rb_point n r p true = true <-> in_rotbox_open n r (co p))) /\
  (~ rb_thick n r -> i_rb_point n r p true = false).
Proof. intros eps n r p O. split; intros T; [now apply rb_point_proper|now apply rb_point_flat]. Qed.
Example C45_point_example : orthogonal 2 (ent (orient rb345)) /\ in_rotbox_open 2 rb345 (rb_at 2 rb345 (fun _ => 1/2)).
Proof. split; [apply rb345_proper|]. exists (fun _ => 1/2). split; [intros; lra|intros i Hi; reflexivity]. Qed.

(** The same test, in the box's own frame: carry the point back by the inverse orientation
    about the base corner and test it against the axis box with that corner and size. *)
Definition own_frame (n : nat) (r : rotbox R) (x : pt) : pt :=
  fun i => co (corner0 r) i + mapply n (ent (orient r)) (fun j => x j - co (corner0 r) j) i.
Definition frame_box (n : nat) (r : rotbox R) (x : pt) : Prop :=
  forall i, (i < n)%nat -> co (corner0 r) i + Rmin 0 (co (rsize r) i) <= x i <= co (corner0 r) i + Rmax 0 (co (rsize r) i).
Theorem C45_own_frame : forall n (r : rotbox R) (p : point R), orthogonal n (ent (orient r)) ->
  (i_rb_point (H := Rnum 0) n r p false = true <-> frame_box n r (own_frame n r (co p))).
Proof.
  intros n r p O. rewrite C45_point_exact by auto. rewrite (in_edge n r O (co p)). unfold frame_box, own_frame, edge. split; intros A i Hi; specialize (A i Hi); lra.
Qed.

(** * Corners and bounding box *)
(** Corner k exists for k < 2^n, is the end of the edges whose bit is set in k, and is in
    the box. *)
Theorem C45_corners : forall (eps : Epsilon) n (r : rotbox R) k, (k < 2 ^ N.of_nat n)%N ->
  exists c, rb_corner n r k = Ret c /\ pteq n (co c) (rb_at n r (fun j => if N.testbit k (N.of_nat j) then 1 else 0)) /\ in_rotbox n r (co c).
Proof.
  intros eps n r k Hk. destruct (rb_corner_defined eps n r k Hk) as [c E]. exists c. split; auto. split; [exact (proj2 (rb_corner_at eps n r k c E))|]. now apply (corner_in_rb eps n r k).
Qed.
(** ... and so by Intersect, whatever the epsilon. *)
Theorem C45_corners_intersect : forall (eps : Epsilon) n (r : rotbox R) k c, 0 <= (eps : R) -> orthogonal n (ent (orient r)) ->
  rb_corner n r k = Ret c -> i_rb_point n r c false = true.
Proof.
  intros eps n r k c He O E. apply rb_point; auto. apply near_edge; auto. intros i Hi.
  pose proof (proj1 (in_edge n r O (co c)) (corner_in_rb eps n r k c E) i Hi). lra.
Qed.
(** An index that is out of range is caught. *)
Theorem C45_corner_range : forall (eps : Epsilon) n (r : rotbox R) k, (2 ^ N.of_nat n <= k)%N -> rb_corner n r k = AssertFail.
Proof. intros eps n r k Hk. unfold rb_corner. destruct (N.ltb_spec k (2 ^ N.of_nat n)); [lia|reflexivity]. Qed.
Example C45_corners_example : (3 < 2 ^ N.of_nat 2)%N. Proof. reflexivity. Qed.

(** boundingBox contains the box, is inside every axis box that contains the corners, has
    its corners in order and is valid exactly when the rotated box is. *)
Theorem C45_bounding_box : forall (eps : Epsilon) n (r : rotbox R),
  let b := rb_bounding_box n r in
  incl (in_rotbox n r) (in_box n b) /\
  (forall a, (forall k c, rb_corner n r k = Ret c -> in_box n a (co c)) -> incl (in_box n b) (in_box n a)) /\
  box_ordered n b /\ box_valid b = rb_valid r.
Proof.
  intros eps n r b. split; [apply bb_contains|]. split; [intros a; apply bb_least|]. split; [apply bb_ordered|apply bb_valid].
Qed.

(** * Rotation *)
(** Rotation about a point moves every corner by that rotation, and keeps the sizes. *)
Definition moved_by (n : nat) (f : pt -> pt) (r r' : rotbox R) : Prop :=
  (forall s, pteq n (rb_at n r' s) (f (rb_at n r s))) /\ rsize r' = rsize r /\ mdims n (me (orient r')).
Definition corners_moved (eps : Epsilon) (n : nat) (f : pt -> pt) (r r' : rotbox R) : Prop :=
  forall k, (k < 2 ^ N.of_nat n)%N -> exists c c', rb_corner n r k = Ret c /\ rb_corner n r' k = Ret c' /\ pteq n (co c') (f (co c)).
Lemma moved_corners (eps : Epsilon) n m p (r r' : rotbox R) : moved_by n (turned n m p) r r' -> corners_moved eps n (turned n m p) r r'.
Proof.
  intros [E _] k Hk. destruct (rb_corner_defined eps n r k Hk) as [c C]. destruct (rb_corner_defined eps n r' k Hk) as [c' C']. exists c, c'. do 2 (split; auto).
  destruct (rb_corner_at eps n r k c C) as [_ F]. destruct (rb_corner_at eps n r' k c' C') as [_ F']. intros i Hi. rewrite F' by auto. rewrite (E _ i Hi).
  apply turned_ext; auto; intros j Hj; auto. now rewrite F.
Qed.
Theorem C45_rotate_point : forall (eps : Epsilon) n (r r' : rotbox R) m p, valid_orth n (orient r) -> valid_orth n m ->
  rb_rotate_point n r m p = Ret r' ->
  corners_moved eps n (turned n m (co p)) r r' /\ rsize r' = rsize r /\ valid_orth n (orient r') /\
  rb_valid r' = rb_valid r && mvalid m && valid p.
Proof.
  intros eps n r r' m p Or Om E. destruct (rotate_point_spec eps n r r' m p Or Om E) as (S & V & O & D & A). repeat split; auto.
  apply moved_corners. repeat split; auto; apply D.
Qed.
(** The point set moves with it. *)
Theorem C45_rotate_set : forall (eps : Epsilon) n (r r' : rotbox R) m p, valid_orth n (orient r) -> mvalid m = true -> orthogonal n (ent m) ->
  rb_rotate_point n r m p = Ret r' -> forall x, in_rotbox n r x <-> in_rotbox n r' (turned n m (co p) x).
Proof.
  intros eps n r r' m p Or V Om E. apply turned_in; auto. apply (rotate_point_spec eps n r r' m p Or (fun _ => Om) E).
Qed.
(** rotateCorner holds the corner, rotateCenter the centre. *)
Theorem C45_rotate_corner : forall (eps : Epsilon) n (r r' : rotbox R) m k, valid_orth n (orient r) -> valid_orth n m ->
  rb_rotate_corner n r m k = Ret r' -> exists c c', rb_corner n r k = Ret c /\ rb_corner n r' k = Ret c' /\ pteq n (co c') (co c) /\
  corners_moved eps n (turned n m (co c)) r r'.
Proof.
  intros eps n r r' m k Or Om E. unfold rb_rotate_corner in E. destruct (rb_corner n r k) as [c| | |] eqn:C; cbn [obind] in E; try discriminate.
  destruct (C45_rotate_point eps n r r' m c Or Om E) as [A _]. destruct (rb_corner_at eps n r k c C) as [Hk _].
  destruct (A k Hk) as (c1 & c' & E1 & E2 & P). rewrite C in E1. injection E1 as <-. exists c, c'. repeat split; auto.
  intros i Hi. rewrite (P i Hi). unfold turned. rewrite Rsum_zero; [ring|]. intros; ring.
Qed.
Theorem C45_rotate_center : forall (eps : Epsilon) n (r r' : rotbox R) m, valid_orth n (orient r) -> valid_orth n m ->
  rb_rotate_center n r m = Ret r' -> pteq n (co (rb_center n r')) (co (rb_center n r)) /\ corners_moved eps n (turned n m (co (rb_center n r))) r r'.
Proof.
  intros eps n r r' m Or Om E. unfold rb_rotate_center in E. split; [|now apply (C45_rotate_point eps n r r' m)].
  destruct (rotate_point_spec eps n r r' m _ Or Om E) as (_ & _ & _ & _ & A). intros i Hi.
  rewrite (rb_center_co eps n r' i Hi), (A (fun _ => 1/2) i Hi). unfold turned.
  rewrite (Rsum_zero n); [rewrite (rb_center_co eps n r i Hi); ring|]. intros j Hj. rewrite (rb_center_co eps n r j Hj). ring.
Qed.
Definition turn90 : rotmatrix R := mkM [[0; 1]; [-1; 0]] false true 1.
Example C45_rotate_example : exists r', rb_rotate_corner (H := Rnum 0) 2 rb345 turn90 1 = Ret r' /\ valid_orth 2 (orient rb345) /\ valid_orth 2 turn90.
Proof.
  eexists. split; [reflexivity|]. split; [intros _; apply rb345_proper|]. intros _ i j Hi Hj. destruct i as [|[|i]]; [| |lia]; destruct j as [|[|j]]; try lia; vm_compute; ring.
Qed.

(** * Balls, segments and boxes (C57) *)
(** Balls: exact for every epsilon. Touching an open ball is the proper test. *)
Theorem C57_ball : forall (eps : Epsilon) n (r : rotbox R) (b : ball R), orthogonal n (ent (orient r)) -> 0 <= radius b ->
  (i_rb_ball n r b false = true <-> meet (in_rotbox n r) (in_ball n b)) /\
  (i_rb_ball n r b true = true <-> meet (in_rotbox n r) (in_ball_open n b)).
Proof.
  intros eps n r b O Hr. destruct (rb_ball eps n r O b Hr) as [A B]. rewrite A, B. split; split; intros (x & X & Y); exists x; auto.
Qed.
Theorem C57_contains_ball : forall (eps : Epsilon) n (r : rotbox R) (b : ball R), orthogonal n (ent (orient r)) -> 0 <= radius b ->
  (c_rb_ball n r b false = true <-> incl (in_ball n b) (near_rotbox n eps r)) /\
  (rb_thick n r -> (c_rb_ball n r b true = true <-> incl (in_ball n b) (in_rotbox_open n r))).
Proof. intros eps n r b O Hr. now apply rb_contains_ball. Qed.
(** The ball's own tolerance, relative to the squared radius, is used in both tests. *)
Theorem C57_ball_contains : forall (eps : Epsilon) n (r : rotbox R) (b : ball R), orthogonal n (ent (orient r)) -> 0 <= radius b ->
  (c_ball_rb n b r false = true <-> forall x, in_rotbox n r x -> dist2 n (co (center b)) x <= radius b * radius b * (1 + eps)) /\
  (c_ball_rb n b r true = true <-> forall x, in_rotbox n r x -> dist2 n (co (center b)) x < radius b * radius b * (1 + eps)).
Proof. intros eps n r b O Hr. now apply ball_contains_rb. Qed.
Theorem C57_ball_contains_exact : forall n (r : rotbox R) (b : ball R), orthogonal n (ent (orient r)) -> 0 <= radius b ->
  (c_ball_rb (H := Rnum 0) n b r false = true <-> incl (in_rotbox n r) (in_ball n b)) /\
  (c_ball_rb (H := Rnum 0) n b r true = true <-> incl (in_rotbox n r) (in_ball_open n b)).
Proof.
  intros n r b O Hr. destruct (ball_contains_rb 0 n r O b Hr) as [A B]. rewrite A, B. unfold incl, in_ball, in_ball_open, epsilon.
  assert (Q : forall x, dist n (co (center b)) x * dist n (co (center b)) x = dist2 n (co (center b)) x) by (intros; apply dist_sqr).
  pose proof (dist_nonneg n (co (center b))) as P.
  split; split; intros F x X; specialize (F x X); specialize (P x); specialize (Q x).
  - apply Rnot_lt_le. intros L. assert (radius b * radius b < dist n (co (center b)) x * dist n (co (center b)) x) by (apply Rmult_le_0_lt_compat; auto). lra.
  - assert (dist n (co (center b)) x * dist n (co (center b)) x <= radius b * radius b) by (apply Rmult_le_compat; auto). lra.
  - apply Rnot_le_lt. intros L. assert (radius b * radius b <= dist n (co (center b)) x * dist n (co (center b)) x) by (apply Rmult_le_compat; auto). lra.
  - assert (dist n (co (center b)) x * dist n (co (center b)) x < radius b * radius b) by (apply Rmult_le_0_lt_compat; auto). lra.
Qed.
(** Segments: the tolerance is only ever generous, and the proper test is exact. *)
Theorem C57_segment : forall (eps : Epsilon) n (r : rotbox R) (s : segment R), 0 <= (eps : R) -> orthogonal n (ent (orient r)) ->
  (meet (in_segment n s) (in_rotbox n r) -> i_rb_seg n r s false = true) /\
  (i_rb_seg n r s false = true -> meet (in_segment n s) (near_rotbox n eps r)) /\
  (rb_thick n r -> (i_rb_seg n r s true = true <-> meet (in_segment_open n s) (in_rotbox_open n r))).
Proof. intros eps n r s He O. now apply rb_seg. Qed.
Theorem C57_contains_segment : forall (eps : Epsilon) n (r : rotbox R) (s : segment R), orthogonal n (ent (orient r)) ->
  (c_rb_seg n r s false = true <-> incl (in_segment n s) (near_rotbox n eps r)) /\
  (rb_thick n r -> (c_rb_seg n r s true = true <-> incl (in_segment n s) (in_rotbox_open n r))).
Proof. intros eps n r s O. now apply rb_contains_seg. Qed.
Theorem C57_segment_contains : forall n (r : rotbox R) (s : segment R), orthogonal n (ent (orient r)) ->
  (c_seg_rb (H := Rnum 0) n s r false = true <-> incl (in_rotbox n r) (in_segment n s)) /\
  (~ pteq n (co (end1 s)) (co (end2 s)) -> (c_seg_rb (H := Rnum 0) n s r true = true <-> incl (in_rotbox n r) (in_segment_open n s))).
Proof. intros n r s O. now apply seg_contains_rb. Qed.
(** Axis boxes and other rotated boxes. *)
Theorem C57_box_contains : forall (eps : Epsilon) n (r : rotbox R) (b : axisbox R), 0 <= (eps : R) ->
  (c_box_rb n b r false = true <-> incl (in_rotbox n r) (near_box n eps b)) /\
  (c_box_rb n b r true = true <-> incl (in_rotbox n r) (in_box_open n b)).
Proof. intros eps n r b He. now apply box_contains_rb. Qed.
Theorem C57_contains_box : forall (eps : Epsilon) n (r : rotbox R) (b : axisbox R), 0 <= (eps : R) -> proper_rotbox n r -> box_ordered n b ->
  (c_rb_box n r b false = true <-> incl (in_box n b) (near_rotbox n eps r)) /\
  (rb_thick n r -> (c_rb_box n r b true = true <-> incl (in_box n b) (in_rotbox_open n r))).
Proof. intros eps n r b He [V O] Ob. now apply rb_contains_box. Qed.
Theorem C57_contains_rotbox : forall (eps : Epsilon) n (outer inner : rotbox R) proper res, 0 <= (eps : R) -> proper_rotbox n outer -> valid_orth n (orient inner) ->
  c_rb_rb n outer inner proper = Ret res ->
  (proper = false -> (res = true <-> incl (in_rotbox n inner) (near_rotbox n eps outer))) /\
  (proper = true -> rb_thick n outer -> (res = true <-> incl (in_rotbox n inner) (in_rotbox_open n outer))).
Proof. intros eps n outer inner proper res He [V O] Oi E. now apply rb_contains_rb. Qed.
Definition rbflat : rotbox R := mkRB (mk2 1 2) (mk2 1 (-1)) (mkM [[0; 1]; [-1; 0]] false true 1).
Example C57_example : proper_rotbox 2 rb345 /\ rb_thick 2 rb345 /\ valid_orth 2 (orient rbflat) /\ box_ordered 2 (mkB (mk2 0 0) (mk2 1 2)) /\
  0 <= radius (mkBall (mk2 1 1) 2) /\ exists res, c_rb_rb (H := Rnum 0) 2 rb345 rbflat false = Ret res.
Proof.
  destruct rb345_proper as (P & T & _). split; [auto|]. split; [auto|]. split; [|split; [|split; [cbn; lra|]]].
  - intros _ i j Hi Hj. destruct i as [|[|i]]; [| |lia]; destruct j as [|[|j]]; try lia; vm_compute; ring.
  - intros i Hi. destruct i as [|[|i]]; [| |lia]; unfold co, mk2; cbn; lra.
  - eexists. reflexivity.
Qed.
Print Assumptions C45_point_tolerance.
Print Assumptions C45_point_exact.
Print Assumptions C45_point_proper.
Print Assumptions C45_own_frame.
Print Assumptions C45_corners.
Print Assumptions C45_corners_intersect.
Print Assumptions C45_corner_range.
Print Assumptions C45_bounding_box.
Print Assumptions C45_rotate_point.
Print Assumptions C45_rotate_set.
Print Assumptions C45_rotate_corner.
Print Assumptions C45_rotate_center.
Print Assumptions C57_ball.
Print Assumptions C57_contains_ball.
Print Assumptions C57_ball_contains.
Print Assumptions C57_ball_contains_exact.
Print Assumptions C57_segment.
Print Assumptions C57_contains_segment.
Print Assumptions C57_segment_contains.
Print Assumptions C57_box_contains.
Print Assumptions C57_contains_box.
Print Assumptions C57_contains_rotbox.
