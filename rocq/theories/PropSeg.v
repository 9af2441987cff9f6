(** C44: segments. *)
From Coq Require Import ZArith NArith Reals Bool List Lia Lra Psatz.
From Flocq Require Import Core.Raux.
From Verif Require Import Base Scalar ConstModel VecModel RotModel QuatModel ShapeModel IntersectModel RSpec VecSpec RotSpec ShapeSpec RLib OrdLib VecProofs VecProofs4 ShapeProofs ShapeProofs2 ShapeProofs3 BallProofs PropBall SegProofs SegProofs2 SegProofs3 SegProofs4.
Import ListNotations.
Open Scope R_scope.

(** Sample segments in the plane: (0,0)-(4,4), (0,4)-(4,0), (1,1)-(6,6), and one whose ends agree. *)
Definition sg1 : segment R := mkS (mkC [0; 0] true) (mkC [4; 4] true).
Definition sg2 : segment R := mkS (mkC [0; 4] true) (mkC [4; 0] true).
Definition sg3 : segment R := mkS (mkC [1; 1] true) (mkC [6; 6] true).
Definition sg0 : segment R := mkS (mkC [1; 1] true) (mkC [1; 1] true).
Definition sgbox : axisbox R := mkB (mkC [1; 2] true) (mkC [3; 5] true).
Definition different_ends (n : nat) (s : segment R) : Prop := ~ pteq n (co (end1 s)) (co (end2 s)).
Ltac pt2 := let i := fresh "i" in let Hi := fresh "Hi" in intros i Hi; destruct i as [|[|i]]; [unfold seg_at, co; cbn; lra|unfold seg_at, co; cbn; lra|lia].
Lemma sg1_ends : different_ends 2 sg1.
Proof. intros E. specialize (E 0%nat ltac:(lia)). cbn in E. lra. Qed.

(** * Segment and point *)
(** Closed segment without, segment without its ends with [proper]. *)
Theorem C44_point : forall n (s : segment R) (p : point R),
  (i_seg_point (H := Rnum 0) n s p false = true <-> in_segment n s (co p)) /\
  (different_ends n s -> (i_seg_point (H := Rnum 0) n s p true = true <-> in_segment_open n s (co p))) /\
  (~ different_ends n s -> i_seg_point (H := Rnum 0) n s p true = false).
Proof.
  intros n s p. split; [apply seg_point|]. split; [intros D; now apply seg_point_proper|].
  intros D. apply seg_point_flat. destruct (flat_or n s) as [F|N]; auto. exfalso. apply D. now apply pos_not_flat.
Qed.
Print Assumptions C44_point.
Example C44_point_example : different_ends 2 sg1 /\ in_segment_open 2 sg1 (co (end1 sg3)) /\ in_segment 2 sg1 (co (end1 sg1)) /\ ~ in_segment_open 2 sg1 (co (end1 sg1)) /\ ~ in_segment 2 sg1 (co (end2 sg2)) /\ ~ different_ends 2 sg0.
Proof.
  split; [apply sg1_ends|]. split; [exists (1 / 4); split; [lra|pt2]|]. split; [exists 0; split; [lra|pt2]|].
  split; [intros (t & Ht & E); specialize (E 0%nat ltac:(lia)); unfold seg_at, co in E; cbn in E; lra|].
  split; [intros (t & Ht & E); pose proof (E 0%nat ltac:(lia)) as A; specialize (E 1%nat ltac:(lia)); unfold seg_at, co in *; cbn in *; lra|].
  intros D. apply D. intros i Hi. reflexivity.
Qed.
(** Only a segment whose two ends are the point is inside the point. *)
Theorem C44_point_contains_segment : forall n (p : point R) (s : segment R), seg_ok n s -> dims n p -> valid p = true ->
  (c_point_seg (H := Rnum 0) n p s false = true <-> incl (in_segment n s) (pteq n (co p))) /\ c_point_seg (H := Rnum 0) n p s true = false.
Proof.
  intros n p s (D1 & D2 & V) Dp Vp. unfold seg_valid in V. apply andb_true_iff in V. destruct V as [V1 V2]. unfold c_point_seg. split; [|reflexivity].
  cbn [negb andb]. rewrite andb_true_iff, !same_pt by auto. split.
  - intros [A B] x (t & Ht & E) i Hi. rewrite (E i Hi). unfold seg_at. rewrite <- (A i Hi), <- (B i Hi). ring.
  - intros I. destruct (on_ends n (co (end1 s)) (co (end2 s))) as [A B]. split; [exact (I _ A)|exact (I _ B)].
Qed.
Print Assumptions C44_point_contains_segment.
Example C44_point_contains_example : seg_ok 2 sg0 /\ incl (in_segment 2 sg0) (pteq 2 (co (end1 sg3))).
Proof. split; [repeat split|]. intros x (t & Ht & E) i Hi. rewrite (E i Hi). revert i Hi. pt2. Qed.

(** * Segment and box *)
Theorem C44_box_exact : forall n (s : segment R) (b : axisbox R), box_ordered n b ->
  (i_seg_box (H := Rnum 0) n s b false = true <-> meet (in_segment n s) (in_box n b)) /\
  (i_seg_box (H := Rnum 0) n s b true = true <-> meet (in_segment_open n s) (in_box_open n b)).
Proof.
  intros n s b O. split; [|now apply (seg_box_proper 0)]. split.
  - intros E. destruct (seg_box_sound 0 n s b ltac:(lra) O E) as (x & X & Y). exists x. split; auto. intros i Hi. specialize (Y i Hi). lra.
  - apply (seg_box_complete 0); auto. apply Rle_refl.
Qed.
Print Assumptions C44_box_exact.
Example C44_box_example : box_ordered 2 sgbox /\ meet (in_segment_open 2 sg1) (in_box_open 2 sgbox).
Proof. split; [pt2|]. exists (seg_at sg1 (5 / 8)). split; [exists (5 / 8); split; [lra|intros i Hi; reflexivity]|]. pt2. Qed.
(** Any epsilon: a common point is never missed, an accepted pair is within epsilon along each axis,
    and the proper test is exact. *)
Theorem C44_box_tolerance : forall (eps : Epsilon) n (s : segment R) (b : axisbox R), 0 <= (eps : R) -> box_ordered n b ->
  (meet (in_segment n s) (in_box n b) -> i_seg_box n s b false = true) /\
  (i_seg_box n s b false = true -> meet (in_segment n s) (near_box n eps b)) /\
  (i_seg_box n s b true = true <-> meet (in_segment_open n s) (in_box_open n b)).
Proof. intros eps n s b He O. split; [now apply seg_box_complete|]. split; [now apply seg_box_sound|now apply seg_box_proper]. Qed.
Print Assumptions C44_box_tolerance.
(** A box contains a segment; any epsilon. *)
Theorem C44_box_contains_segment : forall (eps : Epsilon) n (b : axisbox R) (s : segment R),
  (c_box_seg n b s false = true <-> incl (in_segment n s) (near_box n eps b)) /\
  (c_box_seg n b s true = true <-> incl (in_segment n s) (in_box_open n b)).
Proof. intros. split; [apply box_contains_seg|apply box_contains_seg_proper]. Qed.
Print Assumptions C44_box_contains_segment.
(** A segment contains a box, exact comparisons. *)
Theorem C44_segment_contains_box : forall n (s : segment R) (b : axisbox R), box_ordered n b ->
  (c_seg_box (H := Rnum 0) n s b false = true <-> incl (in_box n b) (in_segment n s)) /\
  (different_ends n s -> (c_seg_box (H := Rnum 0) n s b true = true <-> incl (in_box n b) (in_segment_open n s))).
Proof. intros n s b O. split; [now apply seg_contains_box|]. intros D. now apply seg_contains_box_proper. Qed.
Print Assumptions C44_segment_contains_box.
(** The segment (0,0)-(4,0) contains the flat box [1,3]x[0,0]. *)
Example C44_segment_contains_box_example : let s := mkS (mkC [0; 0] true) (mkC [4; 0] true) in let b := mkB (mkC [1; 0] true) (mkC [3; 0] true) in
  box_ordered 2 b /\ different_ends 2 s /\ incl (in_box 2 b) (in_segment_open 2 s).
Proof.
  intros s b. split; [pt2|]. split; [intros E; specialize (E 0%nat ltac:(lia)); cbn in E; lra|].
  intros x X. pose proof (X 0%nat ltac:(lia)) as A. pose proof (X 1%nat ltac:(lia)) as B. unfold co in A, B. cbn in A, B. exists (x 0%nat / 4). split; [lra|]. pt2.
Qed.

(** * Segment and ball *)
Theorem C44_ball : forall n (s : segment R) (b : ball R), 0 <= radius b ->
  (i_seg_ball (H := Rnum 0) n s b false = true <-> meet (in_segment n s) (in_ball n b)) /\
  (i_seg_ball (H := Rnum 0) n s b true = true <-> meet (in_segment_open n s) (in_ball_open n b)).
Proof. intros n s b Hr. split; [now apply seg_ball|now apply seg_ball_proper]. Qed.
Print Assumptions C44_ball.
Example C44_ball_example : meet (in_segment_open 2 sg1) (in_ball_open 2 ball3).
Proof.
  exists (seg_at sg1 (1 / 2)). split; [exists (1 / 2); split; [lra|intros i Hi; reflexivity]|]. unfold in_ball_open. rewrite (dist_ext 2 (co (center ball3)) (seg_at sg1 (1 / 2)) (co (center ball3)) (co (center ball3))).
  - rewrite dist_refl. cbn. lra.
  - intros i Hi; reflexivity.
  - pt2.
Qed.
Theorem C44_ball_contains_segment : forall n (b : ball R) (s : segment R), 0 <= radius b ->
  (c_ball_seg (H := Rnum 0) n b s false = true <-> incl (in_segment n s) (in_ball n b)) /\
  (c_ball_seg (H := Rnum 0) n b s true = true <-> incl (in_segment n s) (in_ball_open n b)).
Proof. intros n b s Hr. split; [now apply ball_contains_seg|now apply ball_contains_seg_proper]. Qed.
Print Assumptions C44_ball_contains_segment.
(** From dimension two on a segment contains a ball only when the ball is a single point of it. *)
Theorem C44_segment_contains_ball_partial : forall n (s : segment R) (b : ball R), (2 <= n)%nat -> 0 <= radius b ->
  (c_seg_ball (H := Rnum 0) n s b false = true <-> incl (in_ball n b) (in_segment n s)) /\
  (different_ends n s -> (c_seg_ball (H := Rnum 0) n s b true = true <-> incl (in_ball n b) (in_segment_open n s))).
Proof. intros n s b Hn Hr. split; [now apply seg_contains_ball|]. intros D. now apply seg_contains_ball_proper. Qed.
Print Assumptions C44_segment_contains_ball_partial.
Example C44_segment_contains_ball_example : let b := mkBall (mkC [1; 1] true) 0 in 0 <= radius b /\ in_segment 2 sg1 (co (center b)).
Proof. split; [cbn; lra|]. exists (1 / 4). split; [lra|pt2]. Qed.
(** On the line it is wrong: [0,2] contains the ball of radius 1/2 about 1. *)
Theorem C44_segment_contains_ball_refuted :
  exists (s : segment R) (b : ball R), 0 < radius b /\ incl (in_ball 1 b) (in_segment_open 1 s) /\ c_seg_ball (H := Rnum 0) 1 s b false = false.
Proof.
  exists (mkS (mkC [0] true) (mkC [2] true)), (mkBall (mkC [1] true) (1 / 2)). split; [cbn; lra|]. split.
  - intros x X. pose proof (coord_le_dist 1 (co (mkC [1] true)) x 0%nat ltac:(lia)) as C. unfold in_ball in X. cbn [center radius] in X. unfold co in C at 1. cbn [el nth] in C.
    assert (A : Rabs (1 - x 0%nat) <= 1 / 2) by (eapply Rle_trans; [exact C|exact X]). apply Rabs_le_inv in A.
    exists (x 0%nat / 2). split; [lra|]. intros i Hi. destruct i; [|lia]. unfold seg_at, co. cbn. field.
  - unfold c_seg_ball. apply not_true_iff_false. rewrite andb_true_iff. intros [E _]. cbn [radius neqb n0 nofZ Rnum] in E. apply Reqb_iff in E. cbn in E. lra.
Qed.
Print Assumptions C44_segment_contains_ball_refuted.

(** * Two segments *)
Theorem C44_segment_contains_segment : forall n (s1 s2 : segment R),
  (c_seg_seg (H := Rnum 0) n s1 s2 false = true <-> incl (in_segment n s2) (in_segment n s1)) /\
  (different_ends n s1 -> (c_seg_seg (H := Rnum 0) n s1 s2 true = true <-> incl (in_segment n s2) (in_segment_open n s1))).
Proof. intros n s1 s2. split; [apply seg_contains_seg|]. intros D. now apply seg_contains_seg_proper. Qed.
Print Assumptions C44_segment_contains_segment.

(** The directions of the two segments are proportional. *)
Definition parallel_segments (n : nat) (s1 s2 : segment R) : Prop := forall i j, (i < n)%nat -> (j < n)%nat ->
  (co (end2 s1) i - co (end1 s1) i) * (co (end2 s2) j - co (end1 s2) j) = (co (end2 s1) j - co (end1 s1) j) * (co (end2 s2) i - co (end1 s2) i).
(** Parallel segments: Intersect is right. *)
Theorem C44_segments_partial : forall n (s1 s2 : segment R), seg_ok n s1 -> seg_ok n s2 -> parallel_segments n s1 s2 ->
  (i_seg_seg (H := Rnum 0) n s1 s2 false = true <-> meet (in_segment n s1) (in_segment n s2)) /\
  (different_ends n s1 \/ different_ends n s2 ->
   (i_seg_seg (H := Rnum 0) n s1 s2 true = true <-> meet (in_segment_open n s1) (in_segment_open n s2))).
Proof.
  intros n s1 s2 O1 O2 P. split; [now apply seg_seg_parallel|]. intros D. apply seg_seg_parallel_proper; auto. unfold different_ends in D. tauto.
Qed.
Print Assumptions C44_segments_partial.
Example C44_segments_example : seg_ok 2 sg1 /\ seg_ok 2 sg3 /\ parallel_segments 2 sg1 sg3 /\ meet (in_segment_open 2 sg1) (in_segment_open 2 sg3).
Proof.
  split; [repeat split|]. split; [repeat split|]. split; [|exists (fun _ => 2); split; [exists (1 / 2)|exists (1 / 5)]; (split; [lra|]); pt2].
  intros i j Hi Hj. do 2 (destruct i as [|i]; [do 2 (destruct j as [|j]; [cbn; lra|]); lia|]). lia.
Qed.

(** In the plane and in space two segments that cross are never reported, and the answer depends on
    the order of the arguments.  Whenever the segments are not parallel and have an inner point in
    common the test says no, with or without [proper]. *)
Theorem C44_segments_refuted : forall n (s1 s2 : segment R),
  ~ parallel_segments n s1 s2 -> meet (in_segment_open n s1) (in_segment_open n s2) ->
  forall proper, i_seg_seg (H := Rnum 0) n s1 s2 proper = false.
Proof.
  intros n s1 s2 NP (x & (t & Ht & X) & (s & Hs & Y)) proper.
  assert (Dn : 0 < norm2 n (dir s1) * norm2 n (dir s2) - inner n (dir s1) (dir s2) * inner n (dir s1) (dir s2)).
  { pose proof (cauchy_schwarz n (dir s1) (dir s2)) as C. destruct (Req_dec (inner n (dir s1) (dir s2) * inner n (dir s1) (dir s2)) (norm2 n (dir s1) * norm2 n (dir s2))) as [E|E]; [|lra].
    exfalso. apply NP. intros i j Hi Hj. pose proof (cs_equal n (dir s1) (dir s2) E) as K. destruct (flat_or n s2) as [F|N].
    - rewrite <- (F i Hi), <- (F j Hj). ring.
    - pose proof (K i Hi) as A. pose proof (K j Hj) as B. fold (dir s1 i) (dir s1 j) (dir s2 i) (dir s2 j). apply Rmult_eq_reg_l with (norm2 n (dir s2)); [|lra].
      transitivity ((norm2 n (dir s2) * dir s1 i) * dir s2 j); [ring|]. rewrite A. transitivity ((norm2 n (dir s2) * dir s1 j) * dir s2 i); [rewrite B; ring|ring]. }
  change (i_seg_seg (H := Rnum Ez) n s1 s2 proper = false). rewrite (seg_seg_crossing n s1 s2 t s x proper Dn X Y). apply not_true_iff_false. rewrite !andb_true_iff. intros [[[A _] _] _].
  destruct proper; [apply less_eq_proper in A|apply less_eq_false in A; idtac]; cbn in A; lra.
Qed.
Print Assumptions C44_segments_refuted.
Example C44_segments_refuted_example : ~ parallel_segments 2 sg1 sg2 /\ meet (in_segment_open 2 sg1) (in_segment_open 2 sg2).
Proof.
  split; [intros P; specialize (P 0%nat 1%nat ltac:(lia) ltac:(lia)); cbn in P; unfold co in P; cbn in P; lra|].
  exists (fun _ => 2). split; exists (1 / 2); (split; [lra|]); pt2.
Qed.
(** A pair of disjoint segments that is reported, and reported in one order only. *)
Theorem C44_segments_false_positive_refuted : exists s1 s2 : segment R, seg_ok 2 s1 /\ seg_ok 2 s2 /\
  ~ meet (in_segment 2 s1) (in_segment 2 s2) /\ i_seg_seg (H := Rnum 0) 2 s1 s2 false = true /\ i_seg_seg (H := Rnum 0) 2 s2 s1 false = false.
Proof.
  exists (mkS (mkC [1; 0] true) (mkC [2; 0] true)), (mkS (mkC [0; 2] true) (mkC [0; 1] true)).
  split; [repeat split|]. split; [repeat split|]. split.
  { intros (x & (t & Ht & X) & (s & Hs & Y)). specialize (X 0%nat ltac:(lia)). specialize (Y 0%nat ltac:(lia)). unfold seg_at, co in *. cbn in *. lra. }
  split.
  - change (i_seg_seg (H := Rnum Ez) 2 (mkS (mkC [1; 0] true) (mkC [2; 0] true)) (mkS (mkC [0; 2] true) (mkC [0; 1] true)) false = true). rewrite (seg_seg_crossing 2 _ _ (-1) 2 (fun _ => 0) false).
    + rewrite !andb_true_iff, !less_eq_false, !greater_eq_false. cbn. lra.
    + unfold norm2, inner, dir, co. cbn. lra.
    + pt2.
    + pt2.
  - change (i_seg_seg (H := Rnum Ez) 2 (mkS (mkC [0; 2] true) (mkC [0; 1] true)) (mkS (mkC [1; 0] true) (mkC [2; 0] true)) false = false). rewrite (seg_seg_crossing 2 _ _ 2 (-1) (fun _ => 0) false).
    + apply not_true_iff_false. rewrite !andb_true_iff. intros [[[A _] _] _]. apply (less_eq_false 0) in A. cbn in A. lra.
    + unfold norm2, inner, dir, co. cbn. lra.
    + pt2.
    + pt2.
Qed.
Print Assumptions C44_segments_false_positive_refuted.
