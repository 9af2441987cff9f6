(** C62: two polygons in space against each other, and a polygon in space that contains a box.  [space_region] and
    [space_interior] (SpaceSpec) are the sets the polygons stand for, [tilt] is the cosine of the angle between their planes,
    [spans_plane] and [spans_line] say how many axes are set. *)
From Coq Require Import ZArith NArith Reals Bool List Lia Lra Psatz Classical.
From Coq Require Import Floats.SpecFloat.
From Flocq Require Import Core.Raux.
From Verif Require Import Base Scalar ConstModel VecModel RotModel QuatModel ShapeModel IntersectModel PolyModel PolyIntersectModel PolyPolyModel RSpec VecSpec RotSpec ShapeSpec EvenOddSpec RegionSpec PolySpec SpaceSpec RLib MatLib OrdLib B64Lib VecProofs VecProofs2 VecProofs4 ConstProofs ShapeProofs ShapeProofs2 ShapeProofs3 BallProofs EvenOddProofs RegionProofs PolyShapeProofs PolyProofs MotionProofs2 PolySpaceProofs PolySpaceProofs2 PolyPolyProofs PolyPolyProofs2 PolyPolyProofs3 PolyPolyProofs4 PropPolyPoint PropPoly PropPolyShape PropSpace.
Import ListNotations.
Open Scope R_scope.
#[local] Existing Instance Rnum | 0.
#[local] Existing Instance eps0.

Lemma frame_v3 o x y z x' y' z' l : o = mkO (v3 (co (porigin o) 0%nat) (co (porigin o) 1%nat) (co (porigin o) 2%nat)) (v3 x y z) (v3 x' y' z') ->
  x * x + y * y + z * z = 1 -> x' * x' + y' * y' + z' * z' = 1 -> x * x' + y * y' + z * z' = 0 -> pg_ok 3 (mkP o l) /\ spans_plane (mkP o l).
Proof.
  intros E A B C. rewrite E. split; [|split; reflexivity]. split; [|apply Forall_forall; intros c _; repeat split; intros; discriminate]. unfold frame_ok, norm2. cbn [pplane pax0 pax1 porigin]. rewrite !inner_v3. cbn [valid v3]. repeat split; auto; lra.
Qed.
Lemma tilt_v3 o1 o2 x y z x' y' z' a b c a' b' c' l1 l2 : tilt (mkP (mkO o1 (v3 x y z) (v3 x' y' z')) l1) (mkP (mkO o2 (v3 a b c) (v3 a' b' c')) l2) =
  (y * z' - z * y') * (b * c' - c * b') + (z * x' - x * z') * (c * a' - a * c') + (x * y' - y * x') * (a * b' - b * a').
Proof. unfold tilt, normal, inner, cross_coord, v3, co. cbn. ring. Qed.

(** * One plane *)
(** Two polygons in one plane whose frames have one origin: the call returns, and one that has its first corner inside the
    other is found.  (Missing: crossing polygons with no first corner inside, see C58_polygons_refuted.) *)
Theorem C62_same_plane_partial : forall (p1 p2 : polygon R) c1 l1 c2 l2 proper, pg_ok 3 p1 -> pg_ok 3 p2 -> spans_plane p1 -> spans_plane p2 ->
  pteq 3 (co (porigin (pplane p1))) (co (porigin (pplane p2))) -> (forall u, in_plane 3 (pplane p1) (placed (pplane p2) u)) ->
  pcorners p1 = c1 :: l1 -> pcorners p2 = c2 :: l2 ->
  (exists r, i_pg_pg (H := Rnum 0) 3 p1 p2 proper = Ret r) /\
  (space_interior 3 p1 (placed (pplane p2) (co c2)) \/ space_interior 3 p2 (placed (pplane p1) (co c1)) -> i_pg_pg (H := Rnum 0) 3 p1 p2 proper = Ret true).
Proof. intros p1 p2 c1 l1 c2 l2 proper O1 O2 S1 S2 Og Pl E1 E2. exact (same_meet p1 p2 O1 O2 S1 S2 Og Pl c1 l1 c2 l2 proper E1 E2). Qed.
Definition flat0 : polygon R := mkP (mkO (v3 0 0 0) (v3 1 0 0) (v3 0 1 0)) (rectangle 0 0 4 4).
Definition turned : polygon R := mkP (mkO (v3 0 0 0) (v3 (3 / 5) (4 / 5) 0) (v3 (4 / 5) (- (3 / 5)) 0)) [P2 1 0; P2 9 0; P2 9 5].
Lemma flat0_ok : pg_ok 3 flat0 /\ spans_plane flat0.
Proof. apply (frame_v3 _ 1 0 0 0 1 0); [reflexivity|lra|lra|lra]. Qed.
Lemma turned_ok : pg_ok 3 turned /\ spans_plane turned.
Proof. apply (frame_v3 _ (3 / 5) (4 / 5) 0 (4 / 5) (- (3 / 5)) 0); [reflexivity|lra|lra|lra]. Qed.
Example C62_same_plane_example : pg_ok 3 flat0 /\ pg_ok 3 turned /\ spans_plane flat0 /\ spans_plane turned /\ (forall u, in_plane 3 (pplane flat0) (placed (pplane turned) u)) /\
  space_interior 3 flat0 (placed (pplane turned) (co (P2 1 0))).
Proof.
  destruct flat0_ok as [A B]. destruct turned_ok as [C D]. repeat (split; [assumption|]). split.
  - intros u. exists (3 / 5 * u 0%nat + 4 / 5 * u 1%nat), (4 / 5 * u 0%nat - 3 / 5 * u 1%nat). intros [|[|[|i]]] Hi; [| | |lia]; unfold placed, turned, flat0, v3, co; cbn; lra.
  - exists (co (P2 (3 / 5) (4 / 5))). split; [unfold flat0, rectangle; cbn [pcorners]; change (interior [P2 0 0; P2 4 0; P2 4 4; P2 0 4] (co (P2 (3 / 5) (4 / 5)))); in_interior|].
    intros [|[|[|i]]] Hi; [| | |lia]; unfold placed, turned, flat0, v3, P2, co; cbn; lra.
Qed.

(** * Planes that are not at right angles, parallel ones among them *)
(** Wherever the second polygon is moved to, the answers stay what they were. *)
Theorem C62_place_refuted : forall (p1 p2 : polygon R) (v : coords R) proper, pg_ok 3 p1 -> pg_ok 3 p2 -> spans_plane p1 -> spans_plane p2 -> tilt p1 p2 <> 0 -> valid v = true ->
  i_pg_pg (H := Rnum 0) 3 p1 (pg_shift 3 p2 v) proper = i_pg_pg (H := Rnum 0) 3 p1 p2 proper /\
  c_pg_pg (H := Rnum 0) 3 p1 (pg_shift 3 p2 v) proper = c_pg_pg (H := Rnum 0) 3 p1 p2 proper.
Proof. intros. now apply ignores_place. Qed.
(** A triangle above a square, at any height but 0: they have no point in common, and the answer is that they meet; the
    triangle is even said to be inside the square. *)
Definition small_triangle : polygon R := mkP (mkO (v3 0 0 0) (v3 1 0 0) (v3 0 1 0)) [P2 1 1; P2 (1 / 2) (3 / 2); P2 2 (1 / 2)].
Definition above (h : R) : polygon R := pg_shift 3 small_triangle (v3 0 0 h).
Lemma small_ok : pg_ok 3 small_triangle /\ spans_plane small_triangle.
Proof. apply (frame_v3 _ 1 0 0 0 1 0); [reflexivity|lra|lra|lra]. Qed.
Lemma above_apart h : h <> 0 -> ~ meet (space_region 3 flat0) (space_region 3 (above h)).
Proof.
  intros H (y & (u & _ & E) & (w & _ & F)). specialize (E 2%nat ltac:(lia)). specialize (F 2%nat ltac:(lia)). unfold placed, flat0, above, small_triangle, pg_shift, orient_shift, v3, co in *. cbn in E, F. lra.
Qed.
Lemma small_tilt : tilt flat0 small_triangle <> 0.
Proof. unfold flat0, small_triangle. rewrite tilt_v3. lra. Qed.
Lemma small_carry : carry_over (the_data (pplane flat0) (pplane small_triangle)) (pcorners small_triangle) = [P2 1 1; P2 (1 / 2) (3 / 2); P2 2 (1 / 2)].
Proof.
  unfold carry_over, the_data, flat0, small_triangle. cbn [pplane pcorners pax0 pax1 map m_v1 m_v2 m_off]. rewrite !(dot_inner 3), !inner_v3. unfold zero2, pt2, P2, vec_add, at_, get. cbn. repeat match goal with |- _ :: _ = _ :: _ => f_equal | |- mkC _ _ = mkC _ _ => f_equal end; lra.
Qed.
Theorem C62_parallel_refuted : forall h, h <> 0 -> ~ meet (space_region 3 flat0) (space_region 3 (above h)) /\
  (forall proper, i_pg_pg (H := Rnum 0) 3 flat0 (above h) proper = Ret true) /\ c_pg_pg (H := Rnum 0) 3 flat0 (above h) true = Ret true.
Proof.
  intros h H. destruct flat0_ok as [A B]. destruct small_ok as [C D]. split; [now apply above_apart|]. split.
  - intros proper. unfold above. destruct (C62_place_refuted flat0 small_triangle (v3 0 0 h) proper A C B D small_tilt eq_refl) as [-> _].
    change (i_pg_pg 3 flat0 small_triangle proper = Ret true). rewrite (slanted_meet flat0 small_triangle A C B D small_tilt), small_carry. apply (C58_polygons_partial (P2 0 0) [P2 4 0; P2 4 4; P2 0 4] (P2 1 1) [P2 (1 / 2) (3 / 2); P2 2 (1 / 2)]). left. in_interior.
  - unfold above. destruct (C62_place_refuted flat0 small_triangle (v3 0 0 h) true A C B D small_tilt eq_refl) as [_ ->].
    change (c_pg_pg 3 flat0 small_triangle true = Ret true). rewrite (slanted_has flat0 small_triangle A C B D small_tilt) by discriminate. rewrite small_carry.
    change (c_pg2_pg2 [P2 0 0; P2 4 0; P2 4 4; P2 0 4] [P2 1 1; P2 (1 / 2) (3 / 2); P2 2 (1 / 2)] true = Ret true). unfold c_pg2_pg2, chain. unfold point in *. rewrite point_interior; [|in_interior].
    cbn [last chain_from negb all_ret existsb obind]. no_seg. reflexivity.
Qed.

(** * Planes at right angles *)
(** The first polygon has no corner in the plane of the second: the answer is no, whatever the two have in common. *)
Theorem C62_right_angle_refuted : (forall (p1 p2 : polygon R) proper, pg_ok 3 p1 -> pg_ok 3 p2 -> spans_plane p1 -> spans_plane p2 -> tilt p1 p2 = 0 -> pcorners p1 <> [] ->
    (forall c, In c (pcorners p1) -> ~ in_plane 3 (pplane p2) (placed (pplane p1) (co c))) -> i_pg_pg (H := Rnum 0) 3 p1 p2 proper = Ret false) /\
  exists p1 p2 : polygon R, pg_ok 3 p1 /\ pg_ok 3 p2 /\ spans_plane p1 /\ spans_plane p2 /\ tilt p1 p2 = 0 /\ pcorners p1 <> [] /\
    (forall c, In c (pcorners p1) -> ~ in_plane 3 (pplane p2) (placed (pplane p1) (co c))) /\ meet (space_interior 3 p1) (space_interior 3 p2).
Proof.
  split; [intros p1 p2 proper O1 O2 S1 S2 Rt N1 Off; exact (right_miss p1 p2 O1 O2 S1 S2 Rt proper N1 Off)|].
  exists (mkP (mkO (v3 0 0 0) (v3 1 0 0) (v3 0 1 0)) [P2 (-1) (-1); P2 1 (-1); P2 1 1; P2 (-1) 1]), (mkP (mkO (v3 0 0 0) (v3 0 1 0) (v3 0 0 1)) [P2 (-1) (-1); P2 1 (-1); P2 1 1; P2 (-1) 1]).
  destruct (frame_v3 (mkO (v3 0 0 0) (v3 1 0 0) (v3 0 1 0)) 1 0 0 0 1 0 [P2 (-1) (-1); P2 1 (-1); P2 1 1; P2 (-1) 1] eq_refl ltac:(lra) ltac:(lra) ltac:(lra)) as [A B].
  destruct (frame_v3 (mkO (v3 0 0 0) (v3 0 1 0) (v3 0 0 1)) 0 1 0 0 0 1 [P2 (-1) (-1); P2 1 (-1); P2 1 1; P2 (-1) 1] eq_refl ltac:(lra) ltac:(lra) ltac:(lra)) as [C D].
  repeat (split; [assumption|]). split; [rewrite tilt_v3; lra|]. split; [discriminate|]. split.
  - intros c I (u & v & E). specialize (E 0%nat ltac:(lia)). cbn [pcorners In] in I. decompose [or] I; try contradiction; subst c; unfold placed, P2, v3, co in E; cbn in E; lra.
  - exists (co (v3 0 0 0)). split; exists (co (P2 0 0)); (split; [cbn [pcorners]; in_interior|intros [|[|[|i]]] Hi; [| | |lia]; unfold placed, P2, v3, co; cbn; lra]).
Qed.
(** With [proper] set the answer is never yes. *)
Theorem C62_right_angle_proper_refuted : forall (p1 p2 : polygon R), pg_ok 3 p1 -> pg_ok 3 p2 -> spans_plane p1 -> spans_plane p2 -> tilt p1 p2 = 0 -> i_pg_pg (H := Rnum 0) 3 p1 p2 true <> Ret true.
Proof. intros p1 p2 O1 O2 S1 S2 Rt. now apply right_proper. Qed.
(** Containment, on the other hand, is answered rightly. *)
Theorem C62_right_angle_contains : forall (p1 p2 : polygon R) proper, pg_ok 3 p1 -> pg_ok 3 p2 -> spans_plane p1 -> spans_plane p2 -> tilt p1 p2 = 0 -> pcorners p1 <> [] ->
  (exists c, In c (pcorners p2) /\ ~ in_plane 3 (pplane p1) (placed (pplane p2) (co c))) ->
  exists r, c_pg_pg (H := Rnum 0) 3 p1 p2 proper = Ret r /\ (r = true <-> incl (space_region 3 p2) (space_region 3 p1)).
Proof.
  intros p1 p2 proper O1 O2 S1 S2 Rt N1 (c & I & Off). exists false. split.
  - apply (right_contains p1 p2 O1 O2 S1 S2 Rt proper N1). intros E. rewrite E in I. destruct I.
  - split; [discriminate|]. intros X. exfalso. apply Off. destruct (X (placed (pplane p2) (co c))) as (u & _ & E).
    + exists (co c). split; [left; now apply corner_region|intros i Hi; reflexivity].
    + exists (u 0%nat), (u 1%nat). intros i Hi. rewrite (E i Hi). unfold placed. destruct S1 as [-> ->]. ring.
Qed.
Definition wall : polygon R := mkP (mkO (v3 0 1 0) (v3 0 1 0) (v3 0 0 1)) [P2 0 0; P2 1 0; P2 0 1].
Lemma wall_ok : pg_ok 3 wall /\ spans_plane wall.
Proof. apply (frame_v3 _ 0 1 0 0 0 1); [reflexivity|lra|lra|lra]. Qed.
Example C62_right_angle_example : pg_ok 3 flat0 /\ pg_ok 3 wall /\ spans_plane flat0 /\ spans_plane wall /\ tilt flat0 wall = 0 /\ pcorners flat0 <> [] /\ exists c, In c (pcorners wall) /\ ~ in_plane 3 (pplane flat0) (placed (pplane wall) (co c)).
Proof.
  destruct flat0_ok as [A B]. destruct wall_ok as [C D]. repeat (split; [assumption|]). split; [unfold flat0, wall; rewrite tilt_v3; lra|]. split; [discriminate|]. exists (P2 0 1). split; [cbn; tauto|].
  intros (u & v & E). specialize (E 2%nat ltac:(lia)). unfold placed, wall, flat0, P2, v3, co in E. cbn in E. lra.
Qed.

(** * Polygons on a line *)
Theorem C62_lines_partial : forall n (p1 p2 : polygon R) sign, pg_ok n p1 -> pg_ok n p2 -> spans_line p1 -> spans_line p2 -> pcorners p1 <> [] -> pcorners p2 <> [] ->
  sign = 1 \/ sign = -1 -> (forall i, (i < n)%nat -> co (pax0 (pplane p2)) i = sign * co (pax0 (pplane p1)) i) ->
  exists r, i_pg_pg (H := Rnum 0) n p1 p2 false = Ret r /\ (r = true <-> meet (space_region n p1) (space_region n p2)).
Proof. intros n p1 p2 sg O1 O2 S1 S2 N1 N2 Sg E. exact (lines_exact n p1 p2 O1 O2 S1 S2 sg Sg E N1 N2). Qed.
Definition on_line3 (x a b c : R) (l : list (coords R)) : polygon R := mkP (mkO (v3 x 0 0) (v3 a b c) (coords_default 3)) l.
Lemma on_line3_ok x a b c l : a * a + b * b + c * c = 1 -> (forall q, In q l -> co q 1%nat = 0) -> pg_ok 3 (on_line3 x a b c l) /\ spans_line (on_line3 x a b c l).
Proof.
  intros U F. split; [|split; reflexivity]. split.
  - unfold frame_ok, on_line3, norm2. cbn [pplane pax0 pax1 porigin]. rewrite inner_v3. cbn [valid v3 coords_default]. repeat split; auto; discriminate.
  - apply Forall_forall. intros q I. repeat split; [discriminate|]. intros _. now apply F.
Qed.
Example C62_lines_example : pg_ok 3 (on_line3 0 1 0 0 [P2 0 0; P2 2 0]) /\ spans_line (on_line3 0 1 0 0 [P2 0 0; P2 2 0]) /\ pg_ok 3 (on_line3 5 (-1) 0 0 [P2 1 0; P2 4 0]) /\
  i_pg_pg (H := Rnum 0) 3 (on_line3 0 1 0 0 [P2 0 0; P2 2 0]) (on_line3 5 (-1) 0 0 [P2 1 0; P2 4 0]) false = Ret true.
Proof.
  destruct (on_line3_ok 0 1 0 0 [P2 0 0; P2 2 0] ltac:(lra)) as [A B]. { intros q [<-|[<-|[]]]; reflexivity. } destruct (on_line3_ok 5 (-1) 0 0 [P2 1 0; P2 4 0] ltac:(lra)) as [C D]. { intros q [<-|[<-|[]]]; reflexivity. }
  repeat (split; [assumption|]). destruct (C62_lines_partial 3 _ _ (-1) A C B D ltac:(discriminate) ltac:(discriminate) ltac:(auto)) as (r & E & X).
  - intros [|[|[|i]]] Hi; [| | |lia]; unfold on_line3, v3, co; cbn; lra.
  - rewrite E. f_equal. apply X. exists (co (v3 (3 / 2) 0 0)). split.
    + exists (co (P2 (3 / 2) 0)). split; [left; exists (P2 0 0), (P2 2 0); split; [cbn; tauto|exists (3 / 4); split; [lra|intros [|[|i]] Hi; [| |lia]; unfold P2, co; cbn; lra]]|]. intros [|[|[|i]]] Hi; [| | |lia]; unfold placed, on_line3, P2, v3, co; cbn; lra.
    + exists (co (P2 (7 / 2) 0)). split; [left; exists (P2 1 0), (P2 4 0); split; [cbn; tauto|exists (5 / 6); split; [lra|intros [|[|i]] Hi; [| |lia]; unfold P2, co; cbn; lra]]|]. intros [|[|[|i]]] Hi; [| | |lia]; unfold placed, on_line3, P2, v3, co; cbn; lra.
Qed.
(** Two lines through one point that are at an angle but not a right one are taken for the same line. *)
Theorem C62_lines_angle_refuted : let p1 := on_line3 0 1 0 0 [P2 1 0; P2 2 0] in let p2 := on_line3 0 (3 / 5) (4 / 5) 0 [P2 1 0; P2 2 0] in
  ~ meet (space_region 3 p1) (space_region 3 p2) /\ i_pg_pg (H := Rnum 0) 3 p1 p2 false = Ret true.
Proof.
  intros p1 p2. destruct (on_line3_ok 0 1 0 0 [P2 1 0; P2 2 0] ltac:(lra)) as [A B]. { intros q [<-|[<-|[]]]; reflexivity. } destruct (on_line3_ok 0 (3 / 5) (4 / 5) 0 [P2 1 0; P2 2 0] ltac:(lra)) as [C D]. { intros q [<-|[<-|[]]]; reflexivity. }
  assert (Bd : bounds_of [P2 1 0; P2 2 0] 1 2). { split; [exists (P2 1 0); split; [cbn; tauto|reflexivity]|]. split; [exists (P2 2 0); split; [cbn; tauto|reflexivity]|]. intros c [<-|[<-|[]]]; unfold P2, co; cbn; lra. }
  split.
  - intros (y & Y1 & Y2). apply (line_placed 3 p1 1 2 y A B Bd) in Y1. apply (line_placed 3 p2 1 2 y C D Bd) in Y2. destruct Y1 as (s & Hs & Es). destruct Y2 as (t & Ht & Et).
    specialize (Es 1%nat ltac:(lia)). specialize (Et 1%nat ltac:(lia)). unfold p1, p2, on_line3, v3, co in Es, Et. cbn in Es, Et. lra.
  - destruct (lines_answer 3 p1 p2 A C B D 0 1 2 1 2) as (r & E & X); auto.
    + unfold p1, p2, on_line3. cbn [pplane pax0]. rewrite inner_v3. lra.
    + intros i Hi. unfold p1, p2, on_line3. cbn [pplane porigin]. ring.
    + change (i_pg_pg 3 p1 p2 false = Ret true). rewrite E. f_equal. apply X. unfold p1, p2, on_line3. cbn [pplane pax0]. rewrite inner_v3, Rlt_bool_true by lra. lra.
Qed.
(** Lines at right angles through one point: the call reads flags that were never written. *)
Theorem C62_lines_crash_refuted : (forall n (p1 p2 : polygon R) proper, pg_ok n p1 -> pg_ok n p2 -> spans_line p1 -> spans_line p2 ->
    inner n (co (pax0 (pplane p2))) (co (pax0 (pplane p1))) = 0 -> pteq n (co (porigin (pplane p1))) (co (porigin (pplane p2))) -> i_pg_pg (H := Rnum 0) n p1 p2 proper = Undef) /\
  exists p1 p2, pg_ok 3 p1 /\ pg_ok 3 p2 /\ spans_line p1 /\ spans_line p2 /\ inner 3 (co (pax0 (pplane p2))) (co (pax0 (pplane p1))) = 0 /\ pteq 3 (co (porigin (pplane p1))) (co (porigin (pplane p2))).
Proof.
  split; [intros n p1 p2 proper O1 O2 S1 S2 Z E; exact (lines_crash n p1 p2 O1 O2 S1 S2 Z E proper)|].
  exists (on_line3 0 1 0 0 [P2 1 0; P2 2 0]), (on_line3 0 0 1 0 [P2 1 0; P2 2 0]).
  destruct (on_line3_ok 0 1 0 0 [P2 1 0; P2 2 0] ltac:(lra)) as [A B]. { intros q [<-|[<-|[]]]; reflexivity. } destruct (on_line3_ok 0 0 1 0 [P2 1 0; P2 2 0] ltac:(lra)) as [C D]. { intros q [<-|[<-|[]]]; reflexivity. }
  repeat (split; [assumption|]). split; [unfold on_line3; cbn [pplane pax0]; rewrite inner_v3; lra|]. intros i Hi. reflexivity.
Qed.

(** * Doubles *)
(** Polygons and boxes with whole coordinates, as reals (K = IZR) and as doubles (K = b64_ofZ). *)
Section Whole.
Context {T} (K : Z -> T).
Definition w2 (p : Z * Z) : coords T := mkC [K (fst p); K (snd p)] true.
Definition w3 (x y z : Z) : coords T := mkC [K x; K y; K z] true.
Definition floor (l : list (Z * Z)) : polygon T := mkP (mkO (w3 0 0 0) (w3 1 0 0) (w3 0 1 0)) (map w2 l).
Definition upright (l : list (Z * Z)) : polygon T := mkP (mkO (w3 0 0 0) (w3 0 1 0) (w3 0 0 1)) (map w2 l).
Definition tile (a b : Z) : axisbox T := mkB (w3 a a 0) (w3 b b 0).
End Whole.
(** Planes at right angles: when the last corner is on the common line the corner after the last is read, and when a side is on
    it an assertion fails. *)
Theorem C62_right_angle_crash_refuted : forall m : libm,
  i_pg_pg (H := B64 m) 3 (floor b64_ofZ [(1, -1); (1, 1); (0, 0)]%Z) (upright b64_ofZ [(1, -1); (1, 1); (-1, 1); (-1, -1)]%Z) false = Undef /\
  i_pg_pg (H := B64 m) 3 (floor b64_ofZ [(0, 0); (0, 1); (1, 1); (1, 0)]%Z) (upright b64_ofZ [(1, -1); (1, 1); (-1, 1); (-1, -1)]%Z) false = AssertFail.
Proof. intros m. split; vm_compute; reflexivity. Qed.
(** Contains(Polygon<3>, AxisBox<3>): a square said not to hold a smaller one, and one said to hold a square with a corner
    outside it. *)
Definition plate : list (Z * Z) := [(1, 1); (8, 1); (8, 8); (1, 8)]%Z.
Definition diamond : list (Z * Z) := [(1, 2); (4, -1); (7, 2); (4, 5)]%Z.
Theorem C62_contains_box_refuted : forall m : libm,
  (incl (in_box 3 (tile IZR 2 6)) (space_interior 3 (floor IZR plate)) /\ c_pg_box (H := B64 m) 3 (floor b64_ofZ plate) (tile b64_ofZ 2 6) false = Ret false) /\
  (~ incl (in_box 3 (tile IZR 2 6)) (space_region 3 (floor IZR diamond)) /\ c_pg_box (H := B64 m) 3 (floor b64_ofZ diamond) (tile b64_ofZ 2 6) true = Ret true).
Proof.
  intros m. split; split; try (vm_compute; reflexivity).
  - intros y B. pose proof (B 0%nat ltac:(lia)) as B0. pose proof (B 1%nat ltac:(lia)) as B1. pose proof (B 2%nat ltac:(lia)) as B2. unfold tile, w3, co in B0, B1, B2. cbn in B0, B1, B2.
    exists (co (P2 (y 0%nat) (y 1%nat))). split; [|intros [|[|[|i]]] Hi; [| | |lia]; unfold placed, floor, w3, P2, co; cbn; lra].
    cbn [pcorners floor plate map w2 fst snd]. change (interior [P2 1 1; P2 8 1; P2 8 8; P2 1 8] (co (P2 (y 0%nat) (y 1%nat)))). in_interior.
  - intros X. destruct (X (co (v3 6 6 0))) as (u & Rg & E). { intros [|[|[|i]]] Hi; [| | |lia]; unfold tile, w3, v3, co; cbn; lra. }
    assert (L : ldot (1, 1) u <= 9). { apply (region_half (pcorners (floor IZR diamond))); auto. cbn [pcorners floor diamond map w2 fst snd]. intros c I. cbn [In] in I. decompose [or] I; try contradiction; subst c; unfold ldot, co; cbn; lra. }
    pose proof (E 0%nat ltac:(lia)) as E0. pose proof (E 1%nat ltac:(lia)) as E1. unfold placed, floor, w3, v3, co in E0, E1. cbn in E0, E1. unfold ldot in L. cbn [fst snd] in L. lra.
Qed.
(** In exact arithmetic no box is ever said to be inside a polygon. *)
Theorem C62_contains_box_exact_refuted : forall n (p : polygon R) (b : axisbox R) proper, valid (porigin (pplane p)) = true -> c_pg_box (H := Rnum 0) n p b proper <> Ret true.
Proof.
  intros n p b proper V. change (c_pg_box n p b proper <> Ret true). unfold c_pg_box, pg_contains_box. destruct (PolyPolyModel.box_dims n (vec_sub n (high b) (low b))) as [[num best]|]; [|discriminate].
  unfold orient_contained at 1, orient_offset. rewrite V. cbn [oassert obind]. cbn [nltb nmul neps Rnum]. unfold epsilon, eps0. rewrite Rmult_0_l. rewrite Rlt_bool_false; [discriminate|]. rewrite (sqr_mag_norm2 eps0 n). apply norm2_nonneg.
Qed.
Print Assumptions C62_same_plane_partial.
Print Assumptions C62_place_refuted.
Print Assumptions C62_parallel_refuted.
Print Assumptions C62_right_angle_refuted.
Print Assumptions C62_right_angle_proper_refuted.
Print Assumptions C62_right_angle_contains.
Print Assumptions C62_lines_partial.
Print Assumptions C62_lines_angle_refuted.
Print Assumptions C62_lines_crash_refuted.
Print Assumptions C62_right_angle_crash_refuted.
Print Assumptions C62_contains_box_refuted.
Print Assumptions C62_contains_box_exact_refuted.
