(** C58 for polygons in space whose corners are on one line or all in one place, against boxes and rotated boxes, in exact
    arithmetic.  The line of the polygon is the set of the points [placed (pplane p) u]. *)
From Coq Require Import ZArith NArith Reals Bool List Lia Lra Psatz Classical.
From Flocq Require Import Core.Raux.
From Verif Require Import Base Scalar ConstModel VecModel RotModel QuatModel ShapeModel IntersectModel PolyModel PolyIntersectModel RSpec VecSpec RotSpec ShapeSpec EvenOddSpec RegionSpec PolySpec SpaceSpec RLib OrdLib VecProofs VecProofs2 VecProofs4 ConstProofs ShapeProofs ShapeProofs2 ShapeProofs3 RotProofs2 RotProofs3 BallProofs RbProofs SegProofs EvenOddProofs RegionProofs PolyShapeProofs PolyProofs MotionProofs2 PolySpaceProofs PolySpaceProofs2 PolySpaceProofs3 PolySpaceProofs4 PolySpaceProofs5 PropPolyPoint PropPoly PropRotBox PropPolyShape PolySpaceLine PropSpace.
Import ListNotations.
Open Scope R_scope.
#[local] Existing Instance Rnum | 0.
#[local] Existing Instance eps0.

(** The answer is right when the polygon meets the box and when its line misses the box; when the line meets the box only beyond
    the polygon, the last call of the code calls itself for ever. *)
Theorem C58_space_flat_box_partial : forall n (p : polygon R) (b : axisbox R) (proper : bool), pg_ok n p -> valid (pax1 (pplane p)) = false -> pcorners p <> [] -> box_ordered n b ->
  let inside := if proper then in_box_open n b else in_box n b in
  (meet (space_region n p) inside -> i_pg_box (H := Rnum 0) n p b proper = Ret true) /\
  (~ (exists u, inside (placed (pplane p) u)) -> i_pg_box (H := Rnum 0) n p b proper = Ret false) /\
  ((exists u, inside (placed (pplane p) u)) -> ~ meet (space_region n p) inside -> i_pg_box (H := Rnum 0) n p b proper = Undef).
Proof. intros n p b proper O V1 Ne Ob. exact (space_box_flat n p b proper O V1 Ne Ob). Qed.
Theorem C58_space_flat_rotbox_partial : forall n (p : polygon R) (r : rotbox R) (proper : bool), pg_ok n p -> valid (pax1 (pplane p)) = false -> pcorners p <> [] ->
  mvalid (orient r) = true -> valid (corner0 r) = true -> orthogonal n (ent (orient r)) -> (proper = true -> rb_thick n r) ->
  let inside := if proper then in_rotbox_open n r else in_rotbox n r in
  (meet (space_region n p) inside -> i_pg_rb (H := Rnum 0) n p r proper = Ret true) /\
  (~ (exists u, inside (placed (pplane p) u)) -> i_pg_rb (H := Rnum 0) n p r proper = Ret false) /\
  ((exists u, inside (placed (pplane p) u)) -> ~ meet (space_region n p) inside -> i_pg_rb (H := Rnum 0) n p r proper = Undef).
Proof. intros n p r proper O V1 Ne Mv Vc Or Th. exact (space_rb_flat n p r proper O V1 Ne Mv Vc Or Th). Qed.

(** The polygon with the corners (1,2,2) and (4,6,2), along (3/5, 4/5, 0). *)
Definition needle : polygon R := mkP (mkO (v3 1 2 2) (v3 (3 / 5) (4 / 5) 0) (mkC [0; 0; 0] false)) [P2 0 0; P2 5 0].
Lemma needle_ok : pg_ok 3 needle /\ valid (pax1 (pplane needle)) = false /\ pcorners needle <> [].
Proof.
  split; [|split; [reflexivity|discriminate]]. split.
  - unfold frame_ok, needle, norm2. cbn [pplane pax0 pax1 porigin]. rewrite !inner_v3. cbn [valid v3]. repeat split; try discriminate; auto; lra.
  - unfold needle. cbn [pplane pcorners]. repeat constructor; intros; try discriminate; reflexivity.
Qed.
Lemma needle_points y : space_region 3 needle y <-> exists t, 0 <= t <= 5 /\ pteq 3 y (co (v3 (1 + 3 / 5 * t) (2 + 4 / 5 * t) 2)).
Proof.
  rewrite (flat_region 3 needle y (proj1 needle_ok) eq_refl). split.
  - intros (u & (a & b & S & t & T & E) & Y).
    assert (U : 0 <= u 0%nat <= 5). { specialize (E 0%nat ltac:(lia)). unfold sides, needle in S. cbn [pcorners app combine In] in S. destruct S as [S|[S|[]]]; injection S as <- <-; unfold P2, co in E; cbn in E; lra. }
    exists (u 0%nat). split; [exact U|]. intros i Hi. rewrite (Y i Hi). destruct i as [|[|[|i]]]; [| | |lia]; unfold placed, needle, v3, co; cbn; lra.
  - intros (t & T & Y). exists (co (P2 t 0)). split.
    + exists (P2 0 0), (P2 5 0). split; [unfold sides, needle; cbn [pcorners app combine In]; tauto|]. exists (t / 5). split; [lra|]. intros [|[|i]] Hi; [| |lia]; unfold P2, co; cbn; lra.
    + intros i Hi. rewrite (Y i Hi). destruct i as [|[|[|i]]]; [| | |lia]; unfold placed, needle, P2, v3, co; cbn; lra.
Qed.
(** A box around the middle of the needle, a box its line passes beside, and a box its line enters after the end. *)
Example C58_space_flat_box_example :
  (box_ordered 3 (mkB (v3 2 3 1) (v3 3 4 3)) /\ meet (space_region 3 needle) (in_box_open 3 (mkB (v3 2 3 1) (v3 3 4 3)))) /\
  (box_ordered 3 (mkB (v3 2 6 1) (v3 3 8 3)) /\ ~ exists u, in_box 3 (mkB (v3 2 6 1) (v3 3 8 3)) (placed (pplane needle) u)) /\
  proper_rotbox 3 rb3 /\ rb_thick 3 rb3.
Proof.
  split; [|split; [|split]].
  - split; [intros [|[|[|i]]] Hi; [cbn; lra|cbn; lra|cbn; lra|lia]|]. exists (co (v3 (1 + 3 / 5 * 2) (2 + 4 / 5 * 2) 2)). split; [apply needle_points; exists 2; split; [lra|intros i Hi; reflexivity]|].
    intros [|[|[|i]]] Hi; [| | |lia]; unfold v3, co; cbn; lra.
  - split; [intros [|[|[|i]]] Hi; [cbn; lra|cbn; lra|cbn; lra|lia]|]. intros (u & U). pose proof (U 0%nat ltac:(lia)) as U0. pose proof (U 1%nat ltac:(lia)) as U1. unfold placed, needle, v3, co in U0, U1. cbn in U0, U1. lra.
  - split; [reflexivity|apply C58_space_box_example].
  - apply C58_space_box_example.
Qed.
(** The full statement fails: the code calls itself for ever on a box that the line meets beyond the polygon. *)
Theorem C58_space_flat_box_refuted :
  let b := mkB (v3 6 8 1) (v3 8 12 3) in
  pg_ok 3 needle /\ pcorners needle <> [] /\ box_thick 3 b /\ ~ meet (space_region 3 needle) (in_box 3 b) /\ forall proper, i_pg_box (H := Rnum 0) 3 needle b proper = Undef.
Proof.
  cbv zeta. set (b := mkB _ _). destruct needle_ok as (O & V1 & Ne). assert (Th : box_thick 3 b) by (intros [|[|[|i]]] Hi; [cbn; lra|cbn; lra|cbn; lra|lia]).
  assert (No : ~ meet (space_region 3 needle) (in_box 3 b)). { intros (y & Y & B). apply needle_points in Y. destruct Y as (t & T & Y). specialize (B 0%nat ltac:(lia)). rewrite (Y 0%nat ltac:(lia)) in B. unfold b, v3, co in B. cbn in B. lra. }
  split; [exact O|]. split; [exact Ne|]. split; [exact Th|]. split; [exact No|]. intros proper. refine (proj2 (proj2 (C58_space_flat_box_partial 3 needle b proper O V1 Ne _)) _ _).
  - intros i Hi. apply Rlt_le. now apply Th.
  - exists (co (P2 10 0)). destruct proper; intros [|[|[|i]]] Hi; try lia; unfold b, placed, needle, P2, v3, co; cbn; lra.
  - intros (y & Y & B). apply No. exists y. split; [exact Y|]. destruct proper; [|exact B]. intros i Hi. destruct (B i Hi). lra.
Qed.
Print Assumptions C58_space_flat_box_partial.
Print Assumptions C58_space_flat_rotbox_partial.
Print Assumptions C58_space_flat_box_refuted.
