(** Polygons in space against points, balls and segments: what the plane test guarantees, and segments that contain a polygon. *)
From Coq Require Import Reals List Bool Lra Lia Psatz Classical.
From Flocq Require Import Core.Raux.
From Verif Require Import Base Scalar ConstModel VecModel RotModel QuatModel VecSpec RSpec RotSpec RLib MatLib VecProofs VecProofs4 ConstProofs ShapeSpec ShapeModel IntersectModel ShapeProofs ShapeProofs2 ShapeProofs3 BallProofs RotProofs2 RotProofs3 RbProofs RbProofs2 SegProofs2 PropBox PropMotion PolyModel PolySpec PolyProofs PolyIntersectModel EvenOddSpec EvenOddProofs RegionSpec RegionProofs PolyShapeProofs PolyShapeProofs2 MotionProofs2 SpaceSpec PolySpaceProofs PolySpaceProofs2 PropSeg.
Import ListNotations.
Open Scope R_scope.

(** ** The plane test, whatever the tolerance *)
Section Far.
Context (eps : Epsilon).
Variable n : nat.
(** What is subtracted from the point is always in the plane: the part left is no shorter than the distance. *)
Lemma offset_plane_any o (x : coords R) : valid (porigin o) = true ->
  exists off c2 y, orient_offset n o x = Ret (off, c2) /\ in_plane n o y /\ norm2 n (co off) = dist2 n (co x) y.
Proof.
  intros V. unfold orient_offset. rewrite V. cbn [oassert]. match goal with |- context [pt2 ?a ?b false] => set (cx := a); set (cy := b) end.
  eexists. eexists. exists (fun i => co (porigin o) i + cx * co (pax0 o) i + cy * co (pax1 o) i). split; [reflexivity|]. split; [exists cx, cy; intros i _; reflexivity|].
  unfold dist2. apply norm2_ext. intros i Hi. rewrite !sub_co, !scale_co by auto. fold cx in cy. fold cy. ring.
Qed.
Lemma contained_far o (x : coords R) : valid (porigin o) = true -> (forall y, in_plane n o y -> eps * norm2 n (co x) <= dist2 n (co x) y) -> orient_contained n o x = Ret None.
Proof.
  intros V Far. unfold orient_contained. destruct (offset_plane_any o x V) as (off & c2 & y & -> & Y & E). cbn [obind]. rewrite sqr_mag_norm2. cbn [nltb nmul neps Rnum]. rewrite Rlt_bool_false; [reflexivity|].
  rewrite E. specialize (Far y Y). replace (nsum n _) with (norm2 n (co x)); [exact Far|]. unfold norm2, inner. symmetry. apply nsum_Rsum.
Qed.
Lemma contained_def o (x : coords R) : valid (porigin o) = true -> exists r, orient_contained n o x = Ret r.
Proof. intros V. unfold orient_contained, orient_offset. rewrite V. cbn [oassert obind]. eexists. reflexivity. Qed.
End Far.

(** ** Segments that contain a polygon, in exact arithmetic *)
#[local] Existing Instance Rnum | 0.
#[local] Existing Instance eps0.
Section Seg.
Variable n : nat.
Lemma dist2_nil (x y : pt) : dist2 n x y <= 0 -> pteq n x y.
Proof.
  intros D. assert (Z : norm2 n (fun i => x i - y i) = 0) by (pose proof (norm2_nonneg n (fun i => x i - y i)); unfold dist2 in D; lra).
  intros i Hi. pose proof (norm2_zero n _ Z i Hi) as E. cbv beta in E. lra.
Qed.
Lemma expand_exact0 o x : expand_exact 0 n o x. Proof. unfold expand_exact, exact_dot. rewrite !dot_inner. tauto. Qed.
Lemma expand_on o x : frame_ok n o -> valid (porigin o) = true ->
  match orient_expand n o x neps with
  | None => ~ exists u, pteq n (co x) (placed o u)
  | Some (o', p2) => frame_ok n o' /\ valid (porigin o') = true /\ flat_ok o' p2 /\ pteq n (placed o' (co p2)) (co x) /\
      (forall c, flat_ok o c -> flat_ok o' c /\ pteq n (placed o' (co c)) (placed o (co c)))
  end.
Proof.
  intros F V. pose proof (expand_spec 0 n o x 0 F (Rle_refl 0) (expand_exact0 o x)) as S. unfold room in S. rewrite V, Rmult_0_l in S. change (@neps R (Rnum eps0)) with 0.
  change (@Rnum 0) with (@Rnum eps0) in S. destruct (orient_expand n o x 0) as [[o' p2]|].
  - destruct S as (F' & V' & Fl & _ & D & K). split; [exact F'|]. split; [exact V'|]. split; [exact Fl|]. split.
    + apply dist2_nil in D. intros i Hi. rewrite (placed_at n o' (co p2) i Hi). now apply D.
    + intros c C. destruct (K c C) as [C' E]. split; [exact C'|]. intros i Hi. rewrite (placed_at n o' (co c) i Hi), (placed_at n o (co c) i Hi). now apply E.
  - destruct S as [V1 S]. intros (u & E). assert (V0 : valid (pax0 o) = true) by (apply F; auto). specialize (S (co x)). assert (I : in_plane n o (co x)).
    { exists (u 0%nat), (u 1%nat). intros i Hi. rewrite (E i Hi). unfold placed. now rewrite V0, V1. }
    specialize (S I). unfold dist2 in S. rewrite (norm2_ext n _ (fun _ => 0)) in S by (intros; ring). unfold norm2, inner in S. rewrite Rsum_zero in S by (intros; ring). lra.
Qed.
(** Points of the plane are told apart by their coordinates. *)
Lemma placed_eq o (u v : pt) : frame_ok n o -> plane_ok o u -> plane_ok o v -> pteq n (placed o u) (placed o v) -> pteq 2 u v.
Proof.
  intros (F1 & F2 & F3 & F4) (_ & U0 & U1) (_ & W0 & W1) E.
  assert (A : u 0%nat = v 0%nat).
  { destruct (valid (pax0 o)) eqn:V0; [|rewrite U0, W0; auto]. specialize (F3 eq_refl). destruct (valid (pax1 o)) eqn:V1.
    - destruct (F4 eq_refl) as [B AB]. assert (X : inner n (fun i => (u 0%nat - v 0%nat) * co (pax0 o) i + (u 1%nat - v 1%nat) * co (pax1 o) i) (co (pax0 o)) = 0).
      { unfold inner. apply Rsum_zero. intros i Hi. specialize (E i Hi). unfold placed in E. rewrite V0, V1 in E. replace (_ + _) with 0 by lra. ring. }
      rewrite inner_plus_l, !inner_scal_l, (inner_comm n (co (pax1 o))), AB in X. fold (norm2 n (co (pax0 o))) in X. rewrite F3 in X. lra.
    - assert (X : inner n (fun i => (u 0%nat - v 0%nat) * co (pax0 o) i) (co (pax0 o)) = 0).
      { unfold inner. apply Rsum_zero. intros i Hi. specialize (E i Hi). unfold placed in E. rewrite V0, V1 in E. replace ((u 0%nat - v 0%nat) * co (pax0 o) i) with 0 by lra. ring. }
      rewrite inner_scal_l in X. fold (norm2 n (co (pax0 o))) in X. rewrite F3 in X. lra. }
  assert (B : u 1%nat = v 1%nat).
  { destruct (valid (pax1 o)) eqn:V1; [|rewrite U1, W1; auto]. destruct (F4 eq_refl) as [B AB]. rewrite (F1 eq_refl) in *. assert (X : inner n (fun i => (u 1%nat - v 1%nat) * co (pax1 o) i) (co (pax1 o)) = 0).
    { unfold inner. apply Rsum_zero. intros i Hi. specialize (E i Hi). unfold placed in E. rewrite (F1 eq_refl), V1, A in E. replace ((u 1%nat - v 1%nat) * co (pax1 o) i) with 0 by lra. ring. }
    rewrite inner_scal_l in X. fold (norm2 n (co (pax1 o))) in X. rewrite B in X. lra. }
  intros [|[|i]] Hi; auto; lia.
Qed.
Definition seg_in (k : nat) (proper : bool) (s : segment R) : pt -> Prop := if proper then in_segment_open k s else in_segment k s.
Lemma seg_in_at k proper s x : seg_in k proper s x <-> exists t, (if proper then 0 < t < 1 else 0 <= t <= 1) /\ pteq k x (seg_at s t).
Proof. unfold seg_in. destruct proper; reflexivity. Qed.
Lemma seg_has proper (s : segment R) l : (proper = true -> different_ends 2 s) -> (c_seg_pg2 s l proper = true <-> incl (region l) (seg_in 2 proper s)).
Proof. intros D. destruct proper; [apply seg_has_pg2_proper; now apply D|apply seg_has_pg2]. Qed.
Lemma seg_flat o (p1 p2 : coords R) t : flat_ok o p1 -> flat_ok o p2 -> plane_ok o (seg_at (mkS p1 p2) t).
Proof. intros (V & A0 & A1) (_ & B0 & B1). split; [exact V|]. split; intros Z; unfold seg_at; cbn [end1 end2]; [rewrite A0, B0 by auto|rewrite A1, B1 by auto]; ring. Qed.
Lemma seg_placed o (p1 p2 : coords R) (s : segment R) t : pteq n (placed o (co p1)) (co (end1 s)) -> pteq n (placed o (co p2)) (co (end2 s)) ->
  pteq n (placed o (seg_at (mkS p1 p2) t)) (seg_at s t).
Proof.
  intros E1 E2 i Hi. unfold seg_at. cbn [end1 end2]. rewrite (placed_comb o (co p1) (co p2) (1 - t) t ltac:(ring) i). now rewrite (E1 i Hi), (E2 i Hi).
Qed.
Lemma space_in_seg p s proper : pg_ok n p -> pcorners p <> [] -> (proper = true -> different_ends n s) ->
  (c_seg_pg n s p proper = true -> incl (space_region n p) (seg_in n proper s)) /\
  ((exists u, pteq n (co (end1 s)) (placed (pplane p) u)) -> (exists u, pteq n (co (end2 s)) (placed (pplane p) u)) ->
    incl (space_region n p) (seg_in n proper s) -> c_seg_pg n s p proper = true).
Proof.
  intros O Ne De. pose proof (first_origin n p O Ne) as V. pose proof O as [F Fl]. unfold c_seg_pg. destruct (pcorners p) as [|c0 l0] eqn:Ec; [congruence|]. rewrite <- Ec in *. clear c0 l0 Ec.
  pose proof (expand_on (pplane p) (end1 s) F V) as X1. destruct (orient_expand n (pplane p) (end1 s) neps) as [[o1 p1]|]; [|split; [discriminate|tauto]].
  destruct X1 as (F1 & V1 & Fl1 & E1 & K1). pose proof (expand_on o1 (end2 s) F1 V1) as X2. destruct (orient_expand n o1 (end2 s) neps) as [[o2 p2]|].
  - destruct X2 as (F2 & V2 & Fl2 & E2 & K2). destruct (K2 p1 Fl1) as [Fl1' E1'].
    assert (E1'' : pteq n (placed o2 (co p1)) (co (end1 s))) by (intros i Hi; rewrite (E1' i Hi); now apply E1).
    assert (D2 : proper = true -> different_ends 2 (mkS p1 p2)).
    { intros P Q. apply (De P). intros i Hi. rewrite <- (E1'' i Hi), <- (E2 i Hi). exact (placed_ext n o2 (co p1) (co p2) Q i Hi). }
    rewrite (seg_has proper _ _ D2).
    assert (Fu : forall u, region (pcorners p) u -> plane_ok o2 u /\ pteq n (placed o2 u) (placed (pplane p) u)).
    { intros u U. destruct (region_flat n p u O U) as [U0 U1]. set (c := mkC [u 0%nat; u 1%nat] true : coords R). assert (Uc : pteq 2 (co c) u) by (intros [|[|i]] Hi; [reflexivity|reflexivity|lia]).
      assert (Fc : flat_ok (pplane p) c) by (split; [exact V|split; [exact U0|exact U1]]). destruct (K1 c Fc) as [Fc1 Ec1]. destruct (K2 c Fc1) as [Fc2 Ec2]. split; [exact Fc2|].
      intros i Hi. rewrite <- (placed_ext n o2 _ _ Uc i Hi), <- (placed_ext n (pplane p) _ _ Uc i Hi). rewrite (Ec2 i Hi). now apply Ec1. }
    split.
    + intros C y (u & U & Ey). apply seg_in_at. specialize (C u U). apply seg_in_at in C. destruct C as (t & T & Et). exists t. split; [exact T|]. intros i Hi. rewrite (Ey i Hi). destruct (Fu u U) as [_ Eu]. rewrite <- (Eu i Hi).
      rewrite (placed_ext n o2 _ _ Et i Hi). now apply (seg_placed o2 p1 p2 s t).
    + intros _ _ I u U. apply seg_in_at. destruct (Fu u U) as [Pu Eu]. specialize (I (placed (pplane p) u)). assert (Ry : space_region n p (placed (pplane p) u)) by (exists u; split; [exact U|intros i _; reflexivity]).
      specialize (I Ry). apply seg_in_at in I. destruct I as (t & T & Et). exists t. split; [exact T|]. apply (placed_eq o2); auto; [now apply seg_flat|].
      intros i Hi. rewrite (Eu i Hi), (Et i Hi). symmetry. now apply (seg_placed o2 p1 p2 s t).
  - split; [discriminate|]. intros _ (u & Eu) _. exfalso. apply X2. set (c := mkC [if valid (pax0 (pplane p)) then u 0%nat else 0; if valid (pax1 (pplane p)) then u 1%nat else 0] true : coords R).
    assert (Fc : flat_ok (pplane p) c) by (split; [exact V|split; intros Z; unfold c, co; cbn [el nth]; rewrite Z; reflexivity]). destruct (K1 c Fc) as [_ Ec]. exists (co c). intros i Hi. rewrite (Ec i Hi), (Eu i Hi).
    unfold placed, c, co. cbn [el nth]. destruct (valid (pax0 (pplane p))), (valid (pax1 (pplane p))); reflexivity.
Qed.
End Seg.
