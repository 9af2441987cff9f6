(** C40 and C43 for polygons: the bounding box, the sloppy bounding sphere and the smallest bounding sphere of a polygon in the
    plane and in space.  [region] and [space_region] (RegionSpec, SpaceSpec) are the points the polygon encloses; boxes and balls
    as sets are those of ShapeSpec. *)
From Coq Require Import ZArith NArith Reals Bool List Lia Lra Psatz.
From Flocq Require Import Core.Raux.
From Verif Require Import Base Scalar ConstModel VecModel ShapeModel IntersectModel PolyModel MiniballModel PolySphereModel RSpec VecSpec ShapeSpec EvenOddSpec RegionSpec PolySpec SpaceSpec MiniballSpec RLib VecProofs VecProofs4 ShapeProofs2 BallProofs SphereProofs RbProofs RegionProofs PolyShapeProofs PolySpaceProofs PolyBoundProofs ConstProofs PropSphere PropMiniball PropPoly PropSpace.
Import ListNotations.
Open Scope R_scope.
#[local] Existing Instance Rnum | 0.

(** * Polygons in the plane *)
Theorem C40_polygon_plane : forall (eps : Epsilon) (l : list (point R)), l <> [] -> (forall c, In c l -> dims 2 c) ->
  let b := poly_bounding_box 2 l in
  incl (region l) (in_box 2 b) /\ (forall b', incl (region l) (in_box 2 b') -> incl (in_box 2 b) (in_box 2 b')) /\ box_valid b = forallb valid l.
Proof.
  intros eps l Ne D b. destruct (bounding_points_spec eps 2 l Ne D) as (_ & O & V & A & B). change (bounding_points 2 l) with b in *. split; [|split; auto].
  - intros x X i Hi. destruct i as [|[|]]; try lia.
    + pose proof (region_half l (1, 0) (co (high b) 0) x) as P. pose proof (region_half l (-1, 0) (- co (low b) 0) x) as Q. unfold ldot in P, Q. cbn [fst snd] in P, Q.
      specialize (P ltac:(intros c I; pose proof (A c I 0%nat ltac:(lia)); lra) X). specialize (Q ltac:(intros c I; pose proof (A c I 0%nat ltac:(lia)); lra) X). lra.
    + pose proof (region_half l (0, 1) (co (high b) 1) x) as P. pose proof (region_half l (0, -1) (- co (low b) 1) x) as Q. unfold ldot in P, Q. cbn [fst snd] in P, Q.
      specialize (P ltac:(intros c I; pose proof (A c I 1%nat ltac:(lia)); lra) X). specialize (Q ltac:(intros c I; pose proof (A c I 1%nat ltac:(lia)); lra) X). lra.
  - intros b' I. apply B. intros c Ic. apply I. left. now apply corner_region.
Qed.
Print Assumptions C40_polygon_plane.
Theorem C43_polygon_plane_sloppy : forall (eps : Epsilon) (l : list (point R)), l <> [] ->
  exists b, poly_bounding_sphere_sloppy 2 l = Ret b /\ ball_valid b = forallb valid l /\ incl (region l) (in_ball 2 b).
Proof.
  intros eps l Ne. destruct (C43_points_sloppy eps 2 l (or_intror (or_introl eq_refl)) Ne) as (b & E & V & P & I). exists b. split; auto. split; auto. now apply region_ball.
Qed.
Print Assumptions C43_polygon_plane_sloppy.
Theorem C43_polygon_plane_exact : forall (eps : Epsilon) (l : list (point R)), 0 < eps -> spread 2 mb_eps (plain 2 l) ->
  (exists p q i, In p l /\ In q l /\ (i < 2)%nat /\ co p i <> co q i) ->
  exists enough, forall fuel, (enough < fuel)%nat -> exists b, poly_bounding_sphere 2 mb_eps fuel l = Some (Ret b) /\ ball_valid b = forallb valid l /\
    incl (region l) (in_ball 2 b) /\ (forall b', incl (region l) (in_ball 2 b') -> radius b <= radius b').
Proof.
  intros eps l He Sp Df. destruct (C43_points_exact eps 2 l He Sp Df) as (N & HN). exists N. intros fuel Hf. destruct (HN fuel Hf) as (b & E & V & P & I & Mi).
  exists b. split; auto. split; auto. split; [now apply region_ball|]. intros b' Ib. apply (Mi b'). intros c Ic. apply Ib. left. now apply corner_region.
Qed.
Print Assumptions C43_polygon_plane_exact.
Example C43_polygon_plane_example : let l := [mk2 0 0; mk2 3 0; mk2 0 4] in spread 2 mb_eps (plain 2 l) /\ (forall c, In c l -> dims 2 c) /\
  exists p q i, In p l /\ In q l /\ (i < 2)%nat /\ co p i <> co q i.
Proof.
  split; [exact C54_search_example|]. split; [intros c [<-|[<-|[<-|[]]]]; reflexivity|]. exists (mk2 0 0), (mk2 3 0), 0%nat. cbn. repeat split; auto; try lra.
Qed.

(** * Polygons in space *)
Theorem C40_polygon_space : forall (eps : Epsilon) n (p : polygon R), pg_ok n p -> pcorners p <> [] ->
  exists b, pg_bounding_box n p = Ret b /\ box_valid b = forallb valid (pcorners p) /\
    incl (space_region n p) (in_box n b) /\ (forall b', incl (space_region n p) (in_box n b') -> incl (in_box n b) (in_box n b')).
Proof. intros eps n p O Ne. destruct (box_spec eps n p O Ne) as (b & E & V & _ & I & M). exists b. auto. Qed.
Print Assumptions C40_polygon_space.
Theorem C43_polygon_space_sloppy : forall (eps : Epsilon) n (p : polygon R), pg_ok n p -> pcorners p <> [] ->
  exists b, pg_bounding_sphere_sloppy n p = Ret b /\ ball_valid b = forallb valid (pcorners p) /\ incl (space_region n p) (in_ball n b).
Proof.
  intros eps n p O Ne. destruct (C43_points_sloppy eps 2 (pcorners p) (or_intror (or_introl eq_refl)) Ne) as (b & E & V & P & I).
  destruct (lifted eps n p b O Ne P) as (c & Ec & Vc & _ & Ic & _); auto.
  { split; intros Z; apply (sloppy_flat eps _ (pcorners p) b); auto; intros x Ix; now apply (corner_flat n p x O Ix). }
  unfold pg_bounding_sphere_sloppy, poly_bounding_sphere_sloppy. rewrite E. cbn [obind]. rewrite Ec. cbn [obind]. rewrite make_pos by auto.
  exists (mkBall c (radius b)). split; auto. split; auto. unfold ball_valid in *. cbn [center]. now rewrite Vc.
Qed.
Print Assumptions C43_polygon_space_sloppy.
Theorem C43_polygon_space_exact : forall (eps : Epsilon) n (p : polygon R), 0 < eps -> pg_ok n p -> spread 2 mb_eps (plain 2 (pcorners p)) ->
  (exists x y i, In x (pcorners p) /\ In y (pcorners p) /\ (i < 2)%nat /\ co x i <> co y i) ->
  exists enough, forall fuel, (enough < fuel)%nat -> exists b, pg_bounding_sphere n mb_eps fuel p = Some (Ret b) /\ ball_valid b = forallb valid (pcorners p) /\
    incl (space_region n p) (in_ball n b) /\ (forall b', incl (space_region n p) (in_ball n b') -> radius b <= radius b').
Proof.
  intros eps n p He O Sp Df. assert (Ne : pcorners p <> []) by (destruct Df as (x & _ & _ & I & _); intros Z; rewrite Z in I; destruct I).
  destruct (C43_points_exact eps 2 (pcorners p) He Sp Df) as (N & HN). exists N. intros fuel Hf. destruct (HN fuel Hf) as (b & E & V & P & I & Mi).
  assert (Fl : flat_pt (pplane p) (co (center b))).
  { assert (Z : forall k, (k < 2)%nat -> (forall x, In x (pcorners p) -> co x k = 0) -> co (center b) k = 0).
    { intros k Hk F. set (b' := mkBall (mkC (tab 2 (fun i => if Nat.eqb i k then 0 else co (center b) i)) true) (radius b)).
      assert (J : forall x, In x (pcorners p) -> in_ball 2 b' (co x)).
      { intros x Ix. pose proof (I x Ix) as B. rewrite in_ball_sqr in B by auto. rewrite in_ball_sqr by auto. specialize (F x Ix). cbn [radius b']. eapply Rle_trans; [|exact B].
        unfold dist2, norm2, inner. cbn [Rsum]. unfold b'. cbn [center]. rewrite !co_tab by lia. destruct k as [|[|]]; try lia; cbn [Nat.eqb]; rewrite F.
        - assert (0 <= co (center b) 0 * co (center b) 0) by apply Rle_0_sqr. nra.
        - assert (0 <= co (center b) 1 * co (center b) 1) by apply Rle_0_sqr. nra. }
      destruct (Mi b' J) as [_ U]. specialize (U (Rle_refl _) k Hk). rewrite <- U. unfold b'. cbn [center]. rewrite co_tab by auto. now rewrite Nat.eqb_refl. }
    split; intros Y; apply Z; auto; intros x Ix; now apply (corner_flat n p x O Ix). }
  destruct (lifted eps n p b O Ne P Fl I) as (c & Ec & Vc & _ & Ic & _).
  unfold pg_bounding_sphere. rewrite E. cbn [rbind]. rewrite Ec. cbn [rbind]. rewrite make_pos by auto.
  exists (mkBall c (radius b)). split; auto. split; [unfold ball_valid in *; cbn [center]; now rewrite Vc|]. split; auto.
  intros b' Ib. cbn [radius]. destruct (foot n (pplane p) (co (center b')) (proj1 O)) as (u & Fu & Du).
  assert (B0 : 0 <= radius b').
  { destruct Df as (x & _ & _ & Ix & _). assert (J : in_ball n b' (placed (pplane p) (co x))) by (apply Ib; exists (co x); split; [left; now apply corner_region|intros i Hi; reflexivity]).
    eapply Rle_trans; [apply (dist_nonneg n)|exact J]. }
  apply (Mi (mkBall (mkC (tab 2 u) true) (radius b'))). intros x Ix. rewrite in_ball_sqr by auto. cbn [center radius].
  assert (J : in_ball n b' (placed (pplane p) (co x))) by (apply Ib; exists (co x); split; [left; now apply corner_region|intros i Hi; reflexivity]).
  rewrite in_ball_sqr in J by auto. eapply Rle_trans; [|exact J]. eapply Rle_trans; [|apply (Du (co x)); now apply (corner_flat n)].
  right. apply (dist2_ext 2); intros i Hi; [now rewrite co_tab|reflexivity].
Qed.
Print Assumptions C43_polygon_space_exact.
Example C43_polygon_space_example : let p := mkP (mkO (v3 1 1 1) (v3 (3 / 5) (4 / 5) 0) (v3 0 0 1)) [mk2 0 0; mk2 3 0; mk2 0 4] in
  pg_ok 3 p /\ pcorners p <> [] /\ spread 2 mb_eps (plain 2 (pcorners p)) /\
  exists x y i, In x (pcorners p) /\ In y (pcorners p) /\ (i < 2)%nat /\ co x i <> co y i.
Proof.
  split; [|split; [discriminate|split; [exact C54_search_example|]]].
  - destruct tilted_ok as ((F & _) & _). split; [exact F|]. repeat constructor; intros; discriminate.
  - exists (mk2 0 0), (mk2 3 0), 0%nat. cbn. repeat split; auto; try lra.
Qed.
(** A polygon without corners has no box and no sphere: assertions, or the ++ of an end iterator, stop the program. *)
Theorem C43_polygon_empty : forall T (N : Num T) n tau fuel o,
  pg_bounding_box n (mkP o ([] : list (point T))) = AssertFail /\ pg_bounding_sphere n tau fuel (mkP o ([] : list (point T))) = Some Undef /\
  (valid (porigin o) = false -> pg_bounding_sphere_sloppy n (mkP o ([] : list (point T))) = AssertFail).
Proof.
  intros T N n tau fuel o. split; [reflexivity|split; [reflexivity|]]. intros V. unfold pg_bounding_sphere_sloppy. cbn [pcorners pplane]. unfold poly_bounding_sphere_sloppy, bounding_sphere_sloppy. cbn [obind].
  unfold orient_convert. rewrite V. reflexivity.
Qed.
Print Assumptions C43_polygon_empty.
