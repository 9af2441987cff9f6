(** C58 for polygons in space: against balls, boxes, rotated boxes and segments in exact arithmetic, and where the tests of points
    and boxes go wrong.  [space_region] and [space_interior] (SpaceSpec) are the region and the interior of the corners in the
    polygon's plane, placed in space; the other sets are those of ShapeSpec. *)
From Coq Require Import ZArith NArith Reals Bool List Lia Lra Psatz Classical.
From Flocq Require Import Core.Raux.
From Verif Require Import Base Scalar ConstModel VecModel RotModel QuatModel ShapeModel IntersectModel PolyModel PolyIntersectModel RSpec VecSpec RotSpec ShapeSpec EvenOddSpec RegionSpec PolySpec SpaceSpec RLib OrdLib VecProofs VecProofs2 VecProofs4 ConstProofs ShapeProofs ShapeProofs2 ShapeProofs3 RotProofs2 RotProofs3 BallProofs RbProofs SegProofs EvenOddProofs RegionProofs PolyShapeProofs PolyProofs MotionProofs2 PolySpaceProofs PolySpaceProofs2 PolySpaceProofs3 PolySpaceProofs4 PolySpaceProofs5 PropPolyPoint PropPoly PropRotBox PropPolyShape.
Import ListNotations.
Open Scope R_scope.
#[local] Existing Instance Rnum | 0.
#[local] Existing Instance eps0.

(** * The polygons the operations build *)
(** After any sequence of operations on the corners the polygon meets the hypotheses used below. *)
Theorem C58_space_built : forall (eps : Epsilon) n (p : polygon R), 0 < (eps : R) -> pg_history eps n p -> pg_ok n p /\ axes_ok n (pplane p).
Proof. intros eps n p He Hh. split; [now apply (C49_polygon_history eps n p He Hh)|now apply (history_axes eps n p)]. Qed.
Example C58_space_built_example : exists p : polygon R, pg_history (1 / 8) 3 p /\ pg_num p = 2%nat.
Proof. destruct C49_polygon_example as (p & _ & Hh & N & _). now exists p. Qed.

(** A triangle in a tilted plane. *)
Definition tilted : polygon R := mkP (mkO (v3 1 1 1) (v3 (3 / 5) (4 / 5) 0) (v3 0 0 1)) triangle.
Lemma tilted_ok : pg_ok 3 tilted /\ axes_ok 3 (pplane tilted) /\ pcorners tilted <> [].
Proof.
  split; [|split; [|discriminate]].
  - split; [|repeat constructor; intros; discriminate]. unfold frame_ok, tilted, norm2. cbn [pplane pax0 pax1 porigin]. rewrite !inner_v3. cbn [valid v3]. repeat split; auto; lra.
  - unfold axes_ok, tilted, norm2. cbn [pplane pax0 pax1]. rewrite !inner_v3. lra.
Qed.
Definition ball3 : ball R := mkBall (v3 (12 / 5) (6 / 5) 2) 2.
Definition box3 : axisbox R := mkB (v3 0 0 0) (v3 9 9 9).
Definition rb3 : rotbox R := mkRB (v3 1 1 0) (v3 9 (-9) 9) (mkM [[3 / 5; 4 / 5; 0]; [-(4 / 5); 3 / 5; 0]; [0; 0; 1]] false true 1).
Definition seg3 : segment R := mkS (v3 (12 / 5) (6 / 5) 2) (v3 (4 / 5) (12 / 5) 2).

(** * Balls *)
Theorem C58_space_ball : forall n (p : polygon R) (b : ball R), pg_ok n p -> axes_ok n (pplane p) -> pcorners p <> [] -> 0 <= radius b ->
  (exists r, i_pg_ball (H := Rnum 0) n p b false = Ret r /\ (r = true <-> meet (space_region n p) (in_ball n b))) /\
  (exists r, i_pg_ball (H := Rnum 0) n p b true = Ret r /\ (r = true <-> meet (space_region n p) (in_ball_open n b))).
Proof. intros n p b O A N Hr. split; [now apply space_ball|now apply space_ball_proper]. Qed.
Theorem C58_space_in_ball : forall n (p : polygon R) (b : ball R) proper, pg_ok n p -> axes_ok n (pplane p) -> pcorners p <> [] -> 0 <= radius b ->
  exists r, c_ball_pg (H := Rnum 0) n b p proper = Ret r /\ (r = true <-> incl (space_region n p) (if proper then in_ball_open n b else in_ball n b)).
Proof. intros n p b proper. apply space_in_ball. Qed.
(** One point of the plane at distance 1 from the centre of [ball3]. *)
Example C58_space_ball_example : pg_ok 3 tilted /\ axes_ok 3 (pplane tilted) /\ pcorners tilted <> [] /\ 0 <= radius ball3 /\ meet (space_region 3 tilted) (in_ball 3 ball3).
Proof.
  destruct tilted_ok as (A & B & C). repeat split; try apply A; try apply B; auto; [cbn; lra|]. exists (placed (pplane tilted) (co (P2 1 1))). split.
  - exists (co (P2 1 1)). split; [right; unfold tilted, triangle; cbn [pcorners]; in_interior|intros i Hi; reflexivity].
  - apply in_ball_sqr; [cbn; lra|]. unfold dist2, norm2, inner, placed, tilted, ball3, P2, v3, co. cbn. lra.
Qed.

(** * Boxes *)
Theorem C58_space_in_box : forall n (p : polygon R) (b : axisbox R) proper, pg_ok n p ->
  exists r, c_box_pg (H := Rnum 0) n b p proper = Ret r /\ (r = true <-> incl (space_region n p) (if proper then in_box_open n b else in_box n b)).
Proof. intros n p b proper O. exact (space_in_box n p b proper O). Qed.
Theorem C58_space_in_rotbox : forall n (p : polygon R) (r : rotbox R) proper, pg_ok n p ->
  mvalid (orient r) = true -> valid (corner0 r) = true -> orthogonal n (ent (orient r)) -> (proper = true -> rb_thick n r) ->
  exists a, c_rb_pg (H := Rnum 0) n r p proper = Ret a /\ (a = true <-> incl (space_region n p) (if proper then in_rotbox_open n r else in_rotbox n r)).
Proof. intros n p r proper O Mv Vc Or Th. exact (space_in_rb n p r proper O Mv Vc Or Th). Qed.
(** A positive answer of the intersection tests is right. *)
Theorem C58_space_box_partial : forall n (p : polygon R) (b : axisbox R) proper, pg_ok n p -> box_ordered n b ->
  i_pg_box (H := Rnum 0) n p b proper = Ret true -> meet (space_region n p) (if proper then in_box_open n b else in_box n b).
Proof. intros n p b proper O Ob E. exact (space_box_sound n p b proper O Ob E). Qed.
Theorem C58_space_rotbox_partial : forall n (p : polygon R) (r : rotbox R) proper, pg_ok n p ->
  mvalid (orient r) = true -> valid (corner0 r) = true -> orthogonal n (ent (orient r)) -> (proper = true -> rb_thick n r) ->
  i_pg_rb (H := Rnum 0) n p r proper = Ret true -> meet (space_region n p) (if proper then in_rotbox_open n r else in_rotbox n r).
Proof. intros n p r proper O Mv Vc Or Th E. exact (space_rb_sound n p r proper O Mv Vc Or Th E). Qed.
Example C58_space_box_example : pg_ok 3 tilted /\ box_ordered 3 box3 /\ mvalid (orient rb3) = true /\ valid (corner0 rb3) = true /\ orthogonal 3 (ent (orient rb3)) /\ rb_thick 3 rb3.
Proof.
  split; [apply tilted_ok|]. split; [intros [|[|[|i]]] Hi; [cbn; lra|cbn; lra|cbn; lra|lia]|]. split; [reflexivity|]. split; [reflexivity|]. split.
  - intros i j Hi Hj. destruct i as [|[|[|i]]]; [| | |lia]; destruct j as [|[|[|j]]]; try lia; vm_compute; lra.
  - intros [|[|[|i]]] Hi; [cbn; lra|cbn; lra|cbn; lra|lia].
Qed.
(** A square of side 2 around the origin of space, in the plane z = 0. *)
Definition square3 : polygon R := mkP (mkO (v3 (-1) (-1) 0) (v3 1 0 0) (v3 0 1 0)) (rectangle 0 0 2 2).
Lemma square3_ok : pg_ok 3 square3 /\ axes_ok 3 (pplane square3) /\ pcorners square3 <> [].
Proof.
  split; [|split; [|discriminate]].
  - split; [|repeat constructor; intros; discriminate]. unfold frame_ok, square3, norm2. cbn [pplane pax0 pax1 porigin]. rewrite !inner_v3. cbn [valid v3]. repeat split; auto; lra.
  - unfold axes_ok, square3, norm2. cbn [pplane pax0 pax1]. rewrite !inner_v3. lra.
Qed.
Lemma square3_height x : height (pplane square3) x = x 2%nat.
Proof. unfold height, inner, square3, v3, co. cbn. ring. Qed.
(** Boxes that stand on the plane of a polygon in space and reach one of its sides are found. *)
Theorem C58_space_box_touching_partial : forall (p : polygon R) (b : axisbox R), pg_ok 3 p -> valid (pax0 (pplane p)) = true -> valid (pax1 (pplane p)) = true -> box_thick 3 b ->
  (forall x, in_box 3 b x -> 0 <= height (pplane p) x) -> (exists u, on_boundary (pcorners p) u /\ in_box 3 b (placed (pplane p) u)) ->
  i_pg_box (H := Rnum 0) 3 p b false = Ret true.
Proof. intros p b. apply space_box_on. Qed.
Example C58_space_box_touching_example : let b := mkB (v3 (1 / 2) (-(1 / 2)) 0) (v3 2 (1 / 2) 1) in
  pg_ok 3 square3 /\ valid (pax0 (pplane square3)) = true /\ valid (pax1 (pplane square3)) = true /\ box_thick 3 b /\ (forall x, in_box 3 b x -> 0 <= height (pplane square3) x) /\
  exists u, on_boundary (pcorners square3) u /\ in_box 3 b (placed (pplane square3) u).
Proof.
  cbv zeta. split; [apply square3_ok|]. split; [reflexivity|]. split; [reflexivity|]. split; [intros [|[|[|i]]] Hi; [cbn; lra|cbn; lra|cbn; lra|lia]|]. split.
  - intros x X. rewrite square3_height. specialize (X 2%nat ltac:(lia)). unfold v3, co in X. cbn in X. lra.
  - exists (co (P2 2 1)). split; [unfold square3, rectangle; cbn [pcorners]; side_at (mkC [2; 0] true) (mkC [2; 2] true) (1 / 2)|].
    intros [|[|[|i]]] Hi; [| | |lia]; unfold placed, square3, P2, v3, co; cbn; lra.
Qed.
(** Every box whose inside is cut by the plane is reported not to meet the polygon, and every box beyond the plane on the side of
    its normal sends the test into infinite recursion.  The square and the cube around its centre meet. *)
Theorem C58_space_box_refuted :
  (forall (p : polygon R) (b : axisbox R) proper, pg_ok 3 p -> valid (pax0 (pplane p)) = true -> valid (pax1 (pplane p)) = true -> box_thick 3 b ->
    (exists u, in_box_open 3 b (placed (pplane p) u)) -> i_pg_box (H := Rnum 0) 3 p b proper = Ret false) /\
  let b := mkB (v3 (-(1 / 2)) (-(1 / 2)) (-(1 / 2))) (v3 (1 / 2) (1 / 2) (1 / 2)) in
  pg_ok 3 square3 /\ box_thick 3 b /\ meet (space_interior 3 square3) (in_box_open 3 b) /\ forall proper, i_pg_box (H := Rnum 0) 3 square3 b proper = Ret false.
Proof.
  split; [intros p b proper; apply space_box_misses|]. cbv zeta. split; [apply square3_ok|].
  assert (T : box_thick 3 (mkB (v3 (-(1 / 2)) (-(1 / 2)) (-(1 / 2))) (v3 (1 / 2) (1 / 2) (1 / 2)))) by (intros [|[|[|i]]] Hi; [cbn; lra|cbn; lra|cbn; lra|lia]).
  assert (I : in_box_open 3 (mkB (v3 (-(1 / 2)) (-(1 / 2)) (-(1 / 2))) (v3 (1 / 2) (1 / 2) (1 / 2))) (placed (pplane square3) (co (P2 1 1)))) by (intros [|[|[|i]]] Hi; [| | |lia]; unfold placed, square3, P2, v3, co; cbn; lra).
  split; auto. split.
  - exists (placed (pplane square3) (co (P2 1 1))). split; auto. exists (co (P2 1 1)). split; [unfold square3, rectangle; cbn [pcorners]; in_interior|intros i Hi; reflexivity].
  - intros proper. apply space_box_misses; auto; [apply square3_ok|]. now exists (co (P2 1 1)).
Qed.
Theorem C58_space_box_crash_refuted :
  (forall (p : polygon R) (b : axisbox R) proper, pg_ok 3 p -> valid (pax0 (pplane p)) = true -> valid (pax1 (pplane p)) = true -> box_thick 3 b -> pcorners p <> [] ->
    (forall x, in_box 3 b x -> 0 < height (pplane p) x) -> i_pg_box (H := Rnum 0) 3 p b proper = Undef) /\
  let b := mkB (v3 0 0 1) (v3 1 1 2) in
  pg_ok 3 square3 /\ box_thick 3 b /\ forall proper, i_pg_box (H := Rnum 0) 3 square3 b proper = Undef.
Proof.
  split; [intros p b proper; apply space_box_above|]. cbv zeta. split; [apply square3_ok|].
  assert (T : box_thick 3 (mkB (v3 0 0 1) (v3 1 1 2))) by (intros [|[|[|i]]] Hi; [cbn; lra|cbn; lra|cbn; lra|lia]). split; auto.
  intros proper. apply space_box_above; auto; try apply square3_ok. intros x X. rewrite square3_height. specialize (X 2%nat ltac:(lia)). unfold v3, co in X. cbn in X. lra.
Qed.
(** So with the boundary excluded no polygon with two axes meets any box. *)
Theorem C58_space_box_proper_refuted : forall (p : polygon R) (b : axisbox R), pg_ok 3 p -> valid (pax0 (pplane p)) = true -> valid (pax1 (pplane p)) = true -> box_thick 3 b ->
  i_pg_box (H := Rnum 0) 3 p b true <> Ret true.
Proof. intros p b. apply space_box_proper. Qed.

(** * Segments *)
(** A segment that does not lie in the plane: the answer is right except where the polygon's own boundary is. *)
Theorem C58_space_segment_partial : forall (p : polygon R) (s : segment R) proper, pg_ok 3 p -> valid (pax0 (pplane p)) = true -> valid (pax1 (pplane p)) = true -> pcorners p <> [] ->
  ~ (in_plane 3 (pplane p) (co (end1 s)) /\ in_plane 3 (pplane p) (co (end2 s))) ->
  exists r, i_pg_seg (H := Rnum 0) 3 p s proper = Ret r /\
    (r = true -> meet (space_region 3 p) (in_segment 3 s)) /\ (meet (space_interior 3 p) (in_segment 3 s) -> r = true).
Proof. intros p s proper O V0 V1 N Out. now apply space_seg. Qed.
Example C58_space_segment_example : pg_ok 3 tilted /\ valid (pax0 (pplane tilted)) = true /\ valid (pax1 (pplane tilted)) = true /\ pcorners tilted <> [] /\
  ~ (in_plane 3 (pplane tilted) (co (end1 seg3)) /\ in_plane 3 (pplane tilted) (co (end2 seg3))) /\ meet (space_interior 3 tilted) (in_segment 3 seg3).
Proof.
  split; [apply tilted_ok|]. split; [reflexivity|]. split; [reflexivity|]. split; [discriminate|]. split.
  - intros [(u & v & E) _]. pose proof (E 0%nat ltac:(lia)) as E0. pose proof (E 1%nat ltac:(lia)) as E1. unfold tilted, seg3, v3, co in E0, E1. cbn in E0, E1. lra.
  - exists (placed (pplane tilted) (co (P2 1 1))). split.
    + exists (co (P2 1 1)). split; [unfold tilted, triangle; cbn [pcorners]; in_interior|intros i Hi; reflexivity].
    + exists (1 / 2). split; [lra|]. intros [|[|[|i]]] Hi; [| | |lia]; unfold placed, seg_at, tilted, seg3, P2, v3, co; cbn; lra.
Qed.

(** * Points *)
(** The test whether a point is in the plane compares its distance from the plane with its own distance from the origin of space.
    The origin itself is never in a polygon, whatever the tolerance. *)
Theorem C58_space_origin_refuted :
  (forall (eps : Epsilon) (p : polygon R) proper, 0 <= (eps : R) -> valid (porigin (pplane p)) = true -> i_pg_point 3 p (v3 0 0 0) proper = Ret false) /\
  pg_ok 3 square3 /\ space_interior 3 square3 (co (v3 0 0 0)).
Proof.
  split; [|split; [apply square3_ok|]].
  - intros eps p proper He V. unfold i_pg_point. destruct (pcorners p) as [|c l]; [reflexivity|]. unfold orient_contained, orient_offset. rewrite V. cbn [oassert obind].
    rewrite sqr_mag_norm2. match goal with |- context [nltb (norm2 3 ?x) _] => pose proof (norm2_nonneg 3 x) as P end. cbn [nltb Rnum]. rewrite Rlt_bool_false; [reflexivity|].
    match goal with |- ?z <= _ => replace z with 0; [exact P|] end. unfold v3, at_. cbn. ring.
  - exists (co (P2 1 1)). split; [unfold square3, rectangle; cbn [pcorners]; in_interior|]. intros [|[|[|i]]] Hi; [| | |lia]; unfold placed, square3, P2, v3, co; cbn; lra.
Qed.
(** In exact arithmetic no point at all is in a polygon in space, and none contains a ball or a segment. *)
Theorem C58_space_contained_exact_refuted : forall n (p : polygon R) proper, valid (porigin (pplane p)) = true ->
  (forall x, i_pg_point (H := Rnum 0) n p x proper = Ret false) /\ (forall b, c_pg_ball (H := Rnum 0) n p b proper = Ret false) /\ (forall s, c_pg_seg (H := Rnum 0) n p s proper = Ret false).
Proof.
  intros n p proper V. assert (K : forall x, orient_contained (H := Rnum 0) n (pplane p) x = Ret None).
  { intros x. unfold orient_contained, orient_offset. rewrite V. cbn [oassert obind]. rewrite (sqr_mag_norm2 0). match goal with |- context [nltb (norm2 n ?x) _] => pose proof (norm2_nonneg n x) as P end. cbn [nltb Rnum]. rewrite Rlt_bool_false; [reflexivity|].
    cbn [nmul neps Rnum]. unfold epsilon, eps0. rewrite Rmult_0_l. exact P. }
  split; [|split]; intros x; unfold i_pg_point, c_pg_ball, c_pg_seg; destruct (pcorners p); auto; rewrite ?K; try reflexivity. destruct (nltb _ _); reflexivity.
Qed.
(** Away from the origin points off the plane are in the polygon: for every tolerance there is a square of side 2 and a point 1 above
    its middle. *)
Definition far_square (d : R) : polygon R := mkP (mkO (v3 d 0 0) (v3 1 0 0) (v3 0 1 0)) (rectangle 0 0 2 2).
Theorem C58_space_off_plane_refuted : forall (eps : Epsilon) proper, 0 < (eps : R) <= 1 / 8 ->
  pg_ok 3 (far_square (1 / eps)) /\ (forall y, space_region 3 (far_square (1 / eps)) y -> 1 <= dist2 3 (co (v3 (1 / eps + 1) 1 1)) y) /\
  i_pg_point 3 (far_square (1 / eps)) (v3 (1 / eps + 1) 1 1) proper = Ret true.
Proof.
  intros eps proper He. set (d := 1 / eps). assert (Hd : eps * d = 1) by (unfold d; field; lra). assert (D8 : 8 <= d) by nra. split; [|split].
  - split; [|repeat constructor; intros; discriminate]. unfold frame_ok, far_square, norm2. cbn [pplane pax0 pax1 porigin]. rewrite !inner_v3. cbn [valid v3]. repeat split; auto; lra.
  - intros y (u & _ & E). unfold dist2, norm2, inner. cbn [Rsum]. rewrite (E 2%nat ltac:(lia)). set (a := co _ 0 - y 0%nat). set (b := co _ 1 - y 1%nat). unfold placed, far_square, v3, co. cbn.
    pose proof (Rle_0_sqr a) as A. pose proof (Rle_0_sqr b) as B. unfold Rsqr in A, B. lra.
  - unfold i_pg_point, far_square. cbn [pcorners pplane]. unfold rectangle at 1. cbv beta iota. fold (rectangle 0 0 2 2).
    unfold orient_contained, orient_offset. cbn [porigin pax0 pax1]. cbn [valid v3 oassert obind]. fold (v3 d 0 0). rewrite sub_v3. replace (v3 (d + 1 - d) (1 - 0) (1 - 0)) with (v3 1 1 1) by (apply v3_eq; ring).
    rewrite (dot_v3 eps 1 1 1 1 0 0 1) by (auto; try (rewrite Rabs_pos_eq; lra); lra). rewrite scale_v3, sub_v3. replace (v3 (1 - 1 * 1) (1 - 0 * 1) (1 - 0 * 1)) with (v3 0 1 1) by (apply v3_eq; ring).
    rewrite (dot_v3 eps 0 1 1 0 1 0 1) by (auto; try (rewrite Rabs_pos_eq; lra); lra). rewrite scale_v3, sub_v3. replace (v3 (0 - 0 * 1) (1 - 1 * 1) (1 - 0 * 1)) with (v3 0 0 1) by (apply v3_eq; ring).
    rewrite sqr_mag_v3. cbn [nltb Rnum]. rewrite Rlt_bool_true.
    2:{ unfold at_, v3. cbn. unfold epsilon. replace (eps * (0 + (d + 1) * (d + 1) + 1 * 1 + 1 * 1)) with (eps * d * d + 2 * (eps * d) + 3 * eps) by ring. rewrite Hd. lra. }
    assert (C : clear_of eps (rectangle 0 0 2 2) (co (pt2 1 1 false))).
    { intros z (a & b & I & s & S & E) Z. pose proof (E 0%nat ltac:(lia)) as E0. pose proof (E 1%nat ltac:(lia)) as E1. change (co (pt2 1 1 false) 0) with 1. change (co (pt2 1 1 false) 1) with 1 in Z. rewrite Rabs_pos_eq, Rmax_left by lra.
      assert (G : 1 <= Rabs (1 - z 0%nat)); [|lra]. unfold rectangle, sides in I. cbn [app combine In] in I.
      decompose [or] I; clear I; try contradiction; match goal with H : (_, _) = (a, b) |- _ => injection H as <- <- end; cbn [co el nth] in E0, E1; apply Rabs_ge; (left; lra) || (right; lra). }
    destruct (proj1 (C50_defined (rectangle 0 0 2 2) (pt2 1 1 false) proper) ltac:(discriminate)) as (b & Eb). pose proof (C50_even_odd eps _ _ proper b ltac:(lra) C Eb) as Q.
    assert (In : interior (rectangle 0 0 2 2) (co (P2 1 1))) by (unfold rectangle; in_interior). destruct In as [Nb Ev].
    destruct (C50_rule (rectangle 0 0 2 2) (co (P2 1 1)) Nb) as (b' & _ & U). assert (b = true) as -> by (rewrite (U b Q); symmetry; now apply U). exact Eb.
Qed.
(** Contains(Point<3>, Polygon<3>) is false for every polygon with corners, even one that is the point: the point it computes in
    the plane is never marked valid. *)
Theorem C58_space_point_contains_refuted : (forall {T} (H : Num T) n (x : point T) (p : polygon T) proper r, pcorners p <> [] -> c_point_pg n x p proper = Ret r -> r = false) /\
  exists (x : point R) (p : polygon R), pg_ok 3 p /\ pcorners p <> [] /\ valid x = true /\ incl (space_region 3 p) (pteq 3 (co x)).
Proof.
  split.
  - intros T H n x p proper r N. unfold c_point_pg. destruct (pcorners p) as [|c l]; [congruence|]. destruct proper; [congruence|]. match goal with |- context [forallb ?f l] => destruct (forallb f l) end; [|congruence].
    unfold orient_contained, orient_offset. destruct (valid (porigin (pplane p))); [|discriminate]. cbn [oassert obind]. match goal with |- context [nltb ?a ?b] => destruct (nltb a b) end; [|cbv beta iota; congruence]. cbv beta iota. unfold same, vec_equal. cbn [valid pt2]. rewrite orb_true_r. congruence.
  - exists (v3 1 1 1), (mkP (mkO (v3 1 1 1) (coords_default 3) (coords_default 3)) [P2 0 0]). split; [|split; [discriminate|split; [reflexivity|]]].
    + split; [unfold frame_ok; cbn [pplane pax0 pax1 porigin valid coords_default]; repeat split; discriminate|repeat constructor].
    + intros y (u & _ & E) i Hi. rewrite (E i Hi). unfold placed. cbn [pplane pax0 pax1 porigin valid coords_default]. ring.
Qed.
Print Assumptions C58_space_built.
Print Assumptions C58_space_ball.
Print Assumptions C58_space_in_ball.
Print Assumptions C58_space_in_box.
Print Assumptions C58_space_in_rotbox.
Print Assumptions C58_space_box_partial.
Print Assumptions C58_space_rotbox_partial.
Print Assumptions C58_space_box_touching_partial.
Print Assumptions C58_space_box_refuted.
Print Assumptions C58_space_box_crash_refuted.
Print Assumptions C58_space_box_proper_refuted.
Print Assumptions C58_space_segment_partial.
Print Assumptions C58_space_origin_refuted.
Print Assumptions C58_space_contained_exact_refuted.
Print Assumptions C58_space_off_plane_refuted.
Print Assumptions C58_space_point_contains_refuted.
