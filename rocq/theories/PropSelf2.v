(** C47 for polygons in the plane: none contains itself, and the order of the arguments of Intersect matters. *)
From Coq Require Import ZArith NArith Reals Bool List Lia Lra.
From Coq Require Import Floats.SpecFloat.
From Flocq Require Import Core.Raux.
From Verif Require Import Base Scalar ConstModel VecModel RotModel QuatModel ShapeModel IntersectModel PolyModel PolyIntersectModel PolyPolyModel RSpec VecSpec RotSpec ShapeSpec EvenOddSpec RegionSpec PolySpec SpaceSpec RLib MatLib OrdLib B64Lib VecProofs VecProofs2 VecProofs4 ConstProofs ShapeProofs ShapeProofs2 ShapeProofs3 BallProofs EvenOddProofs RegionProofs PolyShapeProofs SegProofs SegProofs2 SegProofs3 SegProofs4 PropSeg PropPolyPoint PropPoly PropPolyShape PolyPolyProofs PolyPolyProofs2 PropPolyPoly.
Import ListNotations.
Open Scope R_scope.
#[local] Existing Instance Rnum | 0.
#[local] Existing Instance eps0.

Lemma self_parallel n s : parallel_segments n s s.
Proof. intros i j Hi Hj. ring. Qed.
Lemma self_meet n (s : segment R) : meet (in_segment_open n s) (in_segment_open n s).
Proof. exists (seg_at s (1 / 2)). split; exists (1 / 2); (split; [lra|intros i Hi; reflexivity]). Qed.
Lemma chain_first (c : coords R) l : exists t, chain (c :: l) = mkS (last (c :: l) (coords_default 2)) c :: t.
Proof. unfold chain. cbn [chain_from]. eauto. Qed.

Lemma last_any {A} : forall (l : list A) a x y, last (a :: l) x = last (a :: l) y.
Proof. induction l as [|b l IH]; intros a x y; [reflexivity|]. exact (IH b x y). Qed.
Lemma last_in {A} : forall (l : list A) a x, In (last (a :: l) x) (a :: l).
Proof. induction l as [|b l IH]; intros a x; [now left|]. right. exact (IH b x). Qed.

(** The side from the last corner to the first is compared with itself, and a segment properly intersects itself. *)
Theorem C47_polygon_self_refuted :
  (forall (c : coords R) l proper, Forall (fun q => dims 2 q /\ valid q = true) (c :: l) -> ~ pteq 2 (co (last (c :: l) c)) (co c) ->
     c_pg2_pg2 (H := Rnum 0) (c :: l) (c :: l) proper = Ret false) /\
  (forall m : libm, c_pg2_pg2 (H := B64 m) (map (w2 b64_ofZ) plate) (map (w2 b64_ofZ) plate) false = Ret false).
Proof.
  split; [|intros m; vm_compute; reflexivity]. intros c l proper F Ne. change (c_pg2_pg2 (c :: l) (c :: l) proper = Ret false).
  pose proof (last_any l c (coords_default 2) c) as La. assert (Ll : dims 2 (last (c :: l) c) /\ valid (last (c :: l) c) = true) by (rewrite Forall_forall in F; apply F, last_in).
  assert (Lc : dims 2 c /\ valid c = true) by (now inversion F).
  set (e := last (c :: l) c) in *. set (s := mkS e c).
  assert (O : seg_ok 2 s). { split; [apply Ll|]. split; [apply Lc|]. unfold seg_valid, s. cbn [end1 end2]. now rewrite (proj2 Ll), (proj2 Lc). }
  pose proof (C44_segments_partial 2 s s O O (self_parallel 2 s)) as [A B].
  assert (D : different_ends 2 s). { unfold different_ends. intros X. now apply Ne. }
  assert (A1 : i_seg_seg 2 s s false = true). { apply A. destruct (self_meet 2 s) as (x & (t & T & X) & _). exists x. split; exists t; (split; [lra|exact X]). }
  assert (B1 : i_seg_seg 2 s s true = true) by (apply B; [now left|apply self_meet]).
  destruct (chain_first c l) as (t & Ch). rewrite La in Ch. fold e s in Ch.
  unfold c_pg2_pg2. rewrite Ch. destruct proper.
  - destruct (i_pg2_point (c :: l) c true) as [b| | |] eqn:Eb; try (unfold i_pg2_point in Eb; discriminate). cbn [obind]. destruct b; [|reflexivity]. cbn [all_ret existsb]. rewrite A1. reflexivity.
  - cbn [obind all_ret]. unfold c_pg2_seg. cbn [obind]. cbn [pg2_seg_loop]. unfold point in *. match goal with |- context [last (c :: l) ?d] => rewrite (last_any l c d c) end. fold e s. cbn [negb]. rewrite B1. reflexivity.
Qed.
Example C47_polygon_self_example : let l := [P2 0 0; P2 1 0; P2 0 1] in Forall (fun q => dims 2 q /\ valid q = true) l /\ ~ pteq 2 (co (last l (P2 0 0))) (co (P2 0 0)).
Proof. cbv zeta. split; [repeat constructor|]. intros X. specialize (X 1%nat ltac:(lia)). unfold P2, co in X. cbn in X. lra. Qed.
Print Assumptions C47_polygon_self_refuted.

(** Two triangles two units apart, and two that cross: found in one order only. *)
Definition tri1 : list (Z * Z) := [(1, 2); (0, 2); (2, 4)]%Z.
Definition tri2 : list (Z * Z) := [(4, 0); (4, 5); (5, 2)]%Z.
Definition tri3 : list (Z * Z) := [(2, 0); (2, 5); (4, 5)]%Z.
Definition tri4 : list (Z * Z) := [(0, 2); (2, 4); (5, 5)]%Z.
Theorem C47_polygon_symmetric_refuted : forall m : libm,
  (~ meet (region (map (w2 IZR) tri1)) (region (map (w2 IZR) tri2)) /\
   i_pg2_pg2 (H := B64 m) (map (w2 b64_ofZ) tri1) (map (w2 b64_ofZ) tri2) false <> i_pg2_pg2 (H := B64 m) (map (w2 b64_ofZ) tri2) (map (w2 b64_ofZ) tri1) false) /\
  (meet (interior (map (w2 IZR) tri3)) (interior (map (w2 IZR) tri4)) /\
   i_pg2_pg2 (H := B64 m) (map (w2 b64_ofZ) tri3) (map (w2 b64_ofZ) tri4) false <> i_pg2_pg2 (H := B64 m) (map (w2 b64_ofZ) tri4) (map (w2 b64_ofZ) tri3) false).
Proof.
  intros m. split; split; try (vm_compute; discriminate).
  - intros (x & A & B).
    assert (L : ldot (1, 0) x <= 2). { apply (region_half (map (w2 IZR) tri1)); auto. cbn [tri1 map w2 fst snd]. intros c I. cbn [In] in I. decompose [or] I; try contradiction; subst c; unfold ldot, co; cbn; lra. }
    assert (M : ldot (-1, 0) x <= -4). { apply (region_half (map (w2 IZR) tri2)); auto. cbn [tri2 map w2 fst snd]. intros c I. cbn [In] in I. decompose [or] I; try contradiction; subst c; unfold ldot, co; cbn; lra. }
    unfold ldot in L, M. cbn [fst snd] in L, M. lra.
  - exists (co (P2 (5 / 2) (41 / 10))). split.
    + change (interior [P2 2 0; P2 2 5; P2 4 5] (co (P2 (5 / 2) (41 / 10)))). in_interior.
    + change (interior [P2 0 2; P2 2 4; P2 5 5] (co (P2 (5 / 2) (41 / 10)))). in_interior.
Qed.
Print Assumptions C47_polygon_symmetric_refuted.
