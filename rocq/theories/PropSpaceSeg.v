(** C58: polygons in space against points, balls and segments. *)
From Coq Require Import ZArith NArith Reals Bool List Lia Lra Psatz Classical.
From Flocq Require Import Core.Raux.
From Verif Require Import Base Scalar ConstModel VecModel RotModel QuatModel ShapeModel IntersectModel PolyModel PolyIntersectModel RSpec VecSpec RotSpec ShapeSpec EvenOddSpec RegionSpec PolySpec SpaceSpec RLib OrdLib VecProofs VecProofs2 VecProofs4 ConstProofs ShapeProofs ShapeProofs2 ShapeProofs3 RotProofs2 RotProofs3 BallProofs RbProofs SegProofs EvenOddProofs RegionProofs PolyShapeProofs PolyProofs MotionProofs2 PolySpaceProofs PolySpaceProofs2 PolySpaceProofs3 PolySpaceProofs4 PolySpaceProofs5 PropPolyPoint PropPoly PropRotBox PropPolyShape PolySpaceLine PropSpace PropSeg PropSpaceLine PropPolyPoint PolyShapeProofs2 PolySpaceSeg.
Import ListNotations.
Open Scope R_scope.

(** A point is away from the plane of the polygon: its distance is at least the square root of the tolerance times its own size. *)
Definition off_plane (eps : R) (n : nat) (p : polygon R) (x : pt) : Prop := forall y, in_plane n (pplane p) y -> eps * norm2 n x <= dist2 n x y.
(** Whatever the tolerance, a point away from the plane is not in the polygon, and a segment with an end away from the plane is not
    contained; no ball with a positive radius is contained, and any other ball is contained exactly when its centre is in the polygon. *)
Theorem C58_space_off_plane_partial : forall (eps : Epsilon) n (p : polygon R) proper, pg_ok n p -> pcorners p <> [] ->
  (forall x, off_plane eps n p (co x) -> i_pg_point n p x proper = Ret false) /\
  (forall s, off_plane eps n p (co (end1 s)) \/ off_plane eps n p (co (end2 s)) -> c_pg_seg n p s proper = Ret false) /\
  (forall b, 0 < radius b -> c_pg_ball n p b proper = Ret false) /\
  (forall b, radius b <= 0 -> c_pg_ball n p b proper = i_pg_point n p (center b) proper).
Proof.
  intros eps n p proper O Ne. pose proof (first_origin n p O Ne) as V. unfold i_pg_point, c_pg_seg, c_pg_ball. destruct (pcorners p) as [|c l]; [congruence|]. split; [|split; [|split]].
  - intros x X. now rewrite (contained_far eps n (pplane p) x V X).
  - intros s [X|X].
    + now rewrite (contained_far eps n (pplane p) (end1 s) V X).
    + destruct (contained_def eps n (pplane p) (end1 s) V) as ([p1|] & ->); [|reflexivity]. cbn [obind]. now rewrite (contained_far eps n (pplane p) (end2 s) V X).
  - intros b B. cbn [nltb Rnum n0 nofZ]. rewrite Rlt_bool_true by exact B. reflexivity.
  - intros b B. cbn [nltb Rnum n0 nofZ]. rewrite Rlt_bool_false by exact B. reflexivity.
Qed.
Example C58_space_off_plane_example : pg_ok 3 square3 /\ pcorners square3 <> [] /\ off_plane (1 / 100) 3 square3 (co (v3 1 1 1)).
Proof.
  split; [apply square3_ok|]. split; [discriminate|]. intros y (u & v & E). unfold dist2, norm2, inner. cbn [Rsum]. rewrite (E 2%nat ltac:(lia)). set (a := co (v3 1 1 1) 0 - y 0%nat). set (b := co (v3 1 1 1) 1 - y 1%nat).
  pose proof (Rle_0_sqr a) as A. pose proof (Rle_0_sqr b) as B. unfold Rsqr in A, B. unfold square3, v3, co. cbn. lra.
Qed.

(** A point of the plane other than the origin of space is in the polygon exactly when it is inside, as long as Dot does not cut its
    coordinates to zero and the tolerance does not bring it to a side; the whole question about a segment is that about the
    coordinates in the plane. *)
Definition exact_in_plane (eps : Epsilon) (n : nat) (p : polygon R) (x : point R) (u : pt) : Prop :=
  pteq n (co x) (placed (pplane p) u) /\ norm2 n (co x) <> 0 /\
  exact_dot eps n (vec_sub n x (porigin (pplane p))) (pax0 (pplane p)) /\
  exact_dot eps n (vec_sub n (vec_sub n x (porigin (pplane p))) (vec_scale n (pax0 (pplane p)) (dot n (vec_sub n x (porigin (pplane p))) (pax0 (pplane p))))) (pax1 (pplane p)).
Lemma contained_in_plane (eps : Epsilon) n p x u : 0 < (eps : R) -> pg_ok n p -> spans_plane p -> exact_in_plane eps n p x u ->
  orient_contained n (pplane p) x = Ret (Some (pt2 (u 0%nat) (u 1%nat) false)).
Proof.
  intros He ((F1 & F2 & F3 & F4) & _) [V0 V1] (E & Nz & D0 & D1). pose proof (F2 V0) as V. specialize (F3 V0). destruct (F4 V1) as [B AB]. unfold orient_contained, orient_offset. rewrite V. cbn [oassert obind].
  set (o := pplane p) in *. set (s := vec_sub n x (porigin o)) in *.
  assert (Sc : forall i, (i < n)%nat -> co s i = u 0%nat * co (pax0 o) i + u 1%nat * co (pax1 o) i).
  { intros i Hi. unfold s. rewrite sub_co by auto. rewrite (E i Hi). unfold placed. rewrite V0, V1. ring. }
  assert (X : dot n s (pax0 o) = u 0%nat).
  { rewrite D0. rewrite (inner_ext n _ _ _ (co (pax0 o)) Sc) by auto. rewrite inner_plus_l, !inner_scal_l, (inner_comm n (co (pax1 o))), AB. fold (norm2 n (co (pax0 o))). rewrite F3. ring. }
  rewrite X in *. set (sh := vec_sub n s (vec_scale n (pax0 o) (u 0%nat))) in *.
  assert (Shc : forall i, (i < n)%nat -> co sh i = u 1%nat * co (pax1 o) i) by (intros i Hi; unfold sh; rewrite sub_co, scale_co, Sc by auto; ring).
  assert (Y : dot n sh (pax1 o) = u 1%nat).
  { rewrite D1. rewrite (inner_ext n _ _ _ (co (pax1 o)) Shc) by auto. rewrite inner_scal_l. fold (norm2 n (co (pax1 o))). rewrite B. ring. }
  rewrite Y. rewrite sqr_mag_norm2. rewrite (norm2_ext n _ (fun _ => 0)) by (intros i Hi; rewrite sub_co, scale_co, Shc by auto; ring).
  cbn [nltb nmul neps Rnum]. rewrite Rlt_bool_true; [reflexivity|]. replace (norm2 n (fun _ => 0)) with 0 by (unfold norm2, inner; rewrite Rsum_zero; [reflexivity|intros; ring]).
  apply Rmult_lt_0_compat; [exact He|]. rewrite nsum_Rsum. change (0 < norm2 n (co x)). pose proof (norm2_nonneg n (co x)). lra.
Qed.
Theorem C58_space_in_plane_partial : forall (eps : Epsilon) n (p : polygon R) proper, 0 < (eps : R) -> pg_ok n p -> spans_plane p -> pcorners p <> [] ->
  (forall x u, exact_in_plane eps n p x u -> clear_of eps (pcorners p) u ->
    exists r, i_pg_point n p x proper = Ret r /\ (r = true <-> space_interior n p (co x))) /\
  (forall s u v, exact_in_plane eps n p (end1 s) u -> exact_in_plane eps n p (end2 s) v ->
    c_pg_seg n p s proper = c_pg2_seg (pcorners p) (mkS (pt2 (u 0%nat) (u 1%nat) false) (pt2 (v 0%nat) (v 1%nat) false)) proper).
Proof.
  intros eps n p proper He O Sp Ne. split.
  - intros x u X C. pose proof X as (E & _). set (c := pt2 (u 0%nat) (u 1%nat) false). assert (Cu : pteq 2 (co c) u) by (intros [|[|i]] Hi; [reflexivity|reflexivity|lia]).
    assert (Cc : clear_of eps (pcorners p) (co c)). { intros z Z Hz. change (co c 0) with (u 0%nat). change (co c 1) with (u 1%nat) in Hz. now apply C. }
    assert (Nb : ~ on_boundary (pcorners p) (co c)). { intros Z. specialize (Cc _ Z eq_refl). rewrite Rminus_diag_eq, Rabs_R0 in Cc by reflexivity. pose proof (Rmax_l 1 (Rabs (co c 0))). assert (0 < eps * Rmax 1 (Rabs (co c 0))) by (apply Rmult_lt_0_compat; [exact He|lra]). lra. }
    destruct (proj1 (C50_defined (pcorners p) c proper) Ne) as (r & Er). exists r. pose proof (C50_even_odd eps _ _ proper r (Rlt_le _ _ He) Cc Er) as Q. split.
    + unfold i_pg_point. rewrite (contained_in_plane eps n p x u He O Sp X). fold c. destruct (pcorners p); [congruence|]. exact Er.
    + split.
      * intros ->. exists (co c). split; [split; [exact Nb|exact Q]|]. intros i Hi. rewrite (E i Hi). symmetry. exact (placed_ext n (pplane p) _ _ Cu i Hi).
      * intros (w & [Wb We] & Ew). destruct Sp as [V0 V1]. assert (Pw : pteq 2 w (co c)).
        { apply (placed_eq n (pplane p)); [apply O| | |].
          - split; [apply O; auto|]. split; congruence.
          - split; [apply O; auto|]. split; congruence.
          - intros i Hi. rewrite <- (Ew i Hi), (E i Hi). symmetry. exact (placed_ext n (pplane p) _ _ Cu i Hi). }
        assert (In : interior (pcorners p) (co c)) by (apply (interior_eq _ w); [exact Pw|split; [exact Wb|exact We]]). destruct In as [_ Ec].
        destruct (C50_rule (pcorners p) (co c) Nb) as (b & _ & U). rewrite (U r Q). symmetry. now apply U.
  - intros s u v X Y. unfold c_pg_seg. rewrite (contained_in_plane eps n p (end1 s) u He O Sp X). rewrite (contained_in_plane eps n p (end2 s) v He O Sp Y). destruct (pcorners p); [congruence|reflexivity].
Qed.

Example C58_space_in_plane_example : let eps := (1 / 100) : Epsilon in
  pg_ok 3 square3 /\ spans_plane square3 /\ pcorners square3 <> [] /\ exact_in_plane eps 3 square3 (v3 (1 / 2) (1 / 2) 0) (co (P2 (3 / 2) (3 / 2))) /\ clear_of eps (pcorners square3) (co (P2 (3 / 2) (3 / 2))).
Proof.
  cbv zeta. set (eps := 1 / 100 : Epsilon). assert (He : (eps : R) = 1 / 100) by reflexivity. split; [apply square3_ok|]. split; [split; reflexivity|]. split; [discriminate|]. split.
  - unfold exact_in_plane, exact_dot, square3. cbn [pplane porigin pax0 pax1]. rewrite !sub_v3. rewrite (dot_v3 eps (1 / 2 - -1) (1 / 2 - -1) (0 - 0) 1 0 0 (3 / 2)) by (try (rewrite Rabs_pos_eq; lra); lra). rewrite scale_v3, sub_v3.
    rewrite (dot_v3 eps _ _ _ 0 1 0 (3 / 2)) by (try (rewrite Rabs_pos_eq; lra); lra).
    split; [intros [|[|[|i]]] Hi; [| | |lia]; unfold placed, P2, v3, co; cbn; lra|]. unfold norm2. rewrite !inner_v3. split; [lra|]. split; lra.
  - intros z (a & b & I & s & S & E) Z. pose proof (E 0%nat ltac:(lia)) as E0. pose proof (E 1%nat ltac:(lia)) as E1. change (co (P2 (3 / 2) (3 / 2)) 0) with (3 / 2). change (co (P2 (3 / 2) (3 / 2)) 1) with (3 / 2) in Z. rewrite Rabs_pos_eq, Rmax_right by lra.
    assert (G : 1 / 2 <= Rabs (3 / 2 - z 0%nat)); [|lra]. unfold square3, rectangle, sides in I. cbn [pcorners app combine In] in I.
    decompose [or] I; clear I; try contradiction; match goal with H : (_, _) = (a, b) |- _ => injection H as <- <- end; cbn [co el nth] in E0, E1; apply Rabs_ge; (left; lra) || (right; lra).
Qed.

(** A segment contains the polygon: never said wrongly, and always said when both ends are in its plane.  Missing: a segment with an
    end off the plane can contain only a polygon without a spread, which addCorner does not leave with two axes. *)
#[local] Existing Instance Rnum | 0.
#[local] Existing Instance eps0.
Theorem C58_space_in_segment_partial : forall n (p : polygon R) (s : segment R) (proper : bool), pg_ok n p -> pcorners p <> [] -> (proper = true -> different_ends n s) ->
  let inside := if proper then in_segment_open n s else in_segment n s in
  (c_seg_pg (H := Rnum 0) n s p proper = true -> incl (space_region n p) inside) /\
  ((exists u, pteq n (co (end1 s)) (placed (pplane p) u)) -> (exists u, pteq n (co (end2 s)) (placed (pplane p) u)) ->
    incl (space_region n p) inside -> c_seg_pg (H := Rnum 0) n s p proper = true).
Proof. intros n p s proper O Ne D. exact (space_in_seg n p s proper O Ne D). Qed.
(** The segment from (-2,-2,2) to (7,10,2) contains the needle, all of it inside. *)
Example C58_space_in_segment_example : let s := mkS (v3 (-2) (-2) 2) (v3 7 10 2) in
  pg_ok 3 needle /\ pcorners needle <> [] /\ different_ends 3 s /\ (exists u, pteq 3 (co (end1 s)) (placed (pplane needle) u)) /\ (exists u, pteq 3 (co (end2 s)) (placed (pplane needle) u)) /\
  incl (space_region 3 needle) (in_segment_open 3 s).
Proof.
  cbv zeta. split; [apply needle_ok|]. split; [discriminate|]. split; [intros E; specialize (E 0%nat ltac:(lia)); unfold co, v3 in E; cbn in E; lra|].
  split; [exists (co (P2 (-5) 0)); intros [|[|[|i]]] Hi; [| | |lia]; unfold placed, needle, P2, v3, co; cbn; lra|]. split; [exists (co (P2 10 0)); intros [|[|[|i]]] Hi; [| | |lia]; unfold placed, needle, P2, v3, co; cbn; lra|].
  intros y Y. apply needle_points in Y. destruct Y as (t & T & Y). exists ((t + 5) / 15). split; [split; lra|]. intros i Hi. rewrite (Y i Hi). destruct i as [|[|[|i]]]; [| | |lia]; unfold seg_at, v3, co; cbn; lra.
Qed.
Print Assumptions C58_space_off_plane_partial.
Print Assumptions C58_space_in_plane_partial.
Print Assumptions C58_space_in_segment_partial.
