(** C43: bounding spheres (and the bounding boxes of balls and segments, C40). *)
From Coq Require Import ZArith NArith Reals Bool List Lia Lra Psatz.
From Flocq Require Import Core.Raux.
From Verif Require Import Base Scalar ConstModel VecModel RotModel QuatModel ShapeModel IntersectModel RSpec VecSpec RotSpec ShapeSpec RLib MatLib OrdLib VecProofs VecProofs4 ShapeProofs ShapeProofs2 ShapeProofs3 PropBox BallProofs PropBall SphereProofs.
Import ListNotations.
Open Scope R_scope.

(** The dimensions for which SloppyDistance exists. *)
Definition dim123 (n : nat) : Prop := n = 1%nat \/ n = 2%nat \/ n = 3%nat.

(** * Lists of points *)
(** For every non-empty list the function returns (its assertions hold) a ball that
    contains every listed point; it is valid exactly when all points are. *)
Theorem C43_points_sloppy : forall (eps : Epsilon) n (c : list (point R)), dim123 n -> c <> [] ->
  exists b, bounding_sphere_sloppy n c = Ret b /\ ball_valid b = forallb valid c /\ 0 <= radius b /\
    forall p, In p c -> in_ball n b (co p).
Proof. intros eps n c Hn Ne. destruct (ritter_contains eps n Hn c Ne) as (b & E & V & _ & P & I). exists b. auto. Qed.
Print Assumptions C43_points_sloppy.
Example C43_points_example : dim123 2 /\ [mk2 0 0; mk2 3 1; mk2 (-1) 7] <> ([] : list (point R)).
Proof. split; [right; left; reflexivity|discriminate]. Qed.
Theorem C43_point : forall (eps : Epsilon) n (p : point R),
  in_ball n (point_bounding_sphere p) (co p) /\ radius (point_bounding_sphere p) = 0.
Proof.
  intros eps n p. unfold point_bounding_sphere, n0. cbn [nofZ Rnum]. rewrite make_pos by (change (IZR 0) with 0; lra). unfold in_ball. cbn. rewrite dist_refl. split; lra.
Qed.
Print Assumptions C43_point.

(** * Boxes *)
(** The sphere contains the box, and every ball that does has at least its radius. *)
Theorem C43_box : forall n (a : axisbox R), box_ordered n a ->
  let s := box_bounding_sphere (H := Rnum 0) n a in
  incl (in_box n a) (in_ball n s) /\ (forall b, incl (in_box n a) (in_ball n b) -> radius s <= radius b).
Proof.
  intros n a O s. unfold s, box_bounding_sphere. rewrite (distance0 n). unfold n2. cbn [ndiv nofZ Rnum].
  pose proof (dist_nonneg n (co (low a)) (co (high a))) as D. rewrite (make_pos 0) by lra. split.
  - intros x X. unfold in_ball. cbn [center radius]. apply box_half; auto. intros. now apply (center_co 0).
  - intros b I. cbn [radius]. destruct (box_ends n a O) as [L H]. pose proof (ball_two n b _ _ (I _ L) (I _ H)). lra.
Qed.
Print Assumptions C43_box.
(** With the library epsilon the distance between the corners may be taken as 0 when it is
    below the tolerance: the sphere contains the box up to that margin. *)
Theorem C43_box_tolerance : forall (eps : Epsilon) n (a : axisbox R) B, 0 <= (eps : R) -> 1 <= B -> box_ordered n a -> box_dims n a ->
  bounded_by n (low a) B -> bounded_by n (high a) B ->
  let s := box_bounding_sphere n a in
  forall x, in_box n a x -> dist2 n (co (center s)) x <= radius s * radius s + eps * B / 2.
Proof.
  intros eps n a B He HB O [Dl Dh] Bl Bh s x X. unfold s, box_bounding_sphere, distance. unfold n2. cbn [ndiv nsqrt nofZ Rnum].
  pose proof (sqd_nonneg eps n (low a) (high a)) as P. pose proof (sqd_ge eps n (low a) (high a) B He HB Dl Dh Bl Bh) as U.
  pose proof (sqrt_pos (squared_distance n (low a) (high a))). rewrite make_pos by lra. cbn [center radius].
  assert (Hh : dist n (co (box_center n a)) x <= dist n (co (low a)) (co (high a)) / 2) by (apply box_half; auto; intros; now apply center_co).
  rewrite <- dist_sqr. pose proof (dist_nonneg n (co (box_center n a)) x). pose proof (dist_sqr n (co (low a)) (co (high a))) as Q.
  pose proof (sqrt_sqrt _ P) as S. change (IZR 2) with 2 in *.
  assert (dist n (co (box_center n a)) x * dist n (co (box_center n a)) x <= (dist n (co (low a)) (co (high a)) / 2) * (dist n (co (low a)) (co (high a)) / 2)) by (apply Rmult_le_compat; auto).
  lra.
Qed.
Print Assumptions C43_box_tolerance.
(** The sloppy sphere contains the box for every epsilon, and contains the other sphere. *)
Theorem C43_box_sloppy : forall (eps : Epsilon) n (a : axisbox R), dim123 n -> box_ordered n a ->
  let s := box_bounding_sphere_sloppy n a in
  incl (in_box n a) (in_ball n s) /\ incl (in_ball n (box_bounding_sphere n a)) (in_ball n s).
Proof.
  intros eps n a Hn O s. unfold s, box_bounding_sphere_sloppy, box_bounding_sphere, distance, n2. cbn [ndiv nsqrt nofZ Rnum].
  pose proof (sloppy_ge eps n Hn (low a) (high a)) as S. pose proof (dist_nonneg n (co (low a)) (co (high a))) as D.
  pose proof (sqrt_pos (squared_distance n (low a) (high a))) as P. rewrite !make_pos by lra. split.
  - intros x X. unfold in_ball. cbn [center radius]. eapply Rle_trans; [apply box_half|]; eauto; [intros; now apply center_co|]. lra.
  - intros x X. unfold in_ball in *. cbn [center radius] in *. eapply Rle_trans; [exact X|].
    assert (sqrt (squared_distance n (low a) (high a)) <= dist n (co (low a)) (co (high a))) by (apply sqrt_le_1_alt; apply sqd_le). lra.
Qed.
Print Assumptions C43_box_sloppy.
Example C43_box_example : box_ordered 2 sq2 /\ box_dims 2 sq2 /\ bounded_by 2 (low sq2) 3 /\ bounded_by 2 (high sq2) 3.
Proof. split; [two|]. split; [split; reflexivity|]. split; two; unfold Rabs; destruct Rcase_abs; lra. Qed.

(** * Segments *)
Theorem C43_segment : forall n (g : segment R),
  let s := seg_bounding_sphere (H := Rnum 0) n g in
  incl (in_segment n g) (in_ball n s) /\ (forall b, incl (in_segment n g) (in_ball n b) -> radius s <= radius b).
Proof.
  intros n g s. unfold s, seg_bounding_sphere. rewrite (distance0 n). unfold n2. cbn [ndiv nofZ Rnum].
  pose proof (dist_nonneg n (co (end1 g)) (co (end2 g))) as D. rewrite (make_pos 0) by lra. split.
  - intros x X. unfold in_ball. cbn [center radius]. apply seg_half; auto. intros i Hi. unfold seg_center. rewrite (mid_co 0) by auto.
    unfold nhalf, n1, n2. cbn [ndiv nofZ Rnum]. change (IZR 1) with 1. change (IZR 2) with 2. field.
  - intros b I. cbn [radius]. destruct (seg_ends n g) as [L H]. pose proof (ball_two n b _ _ (I _ L) (I _ H)). lra.
Qed.
Print Assumptions C43_segment.
Theorem C43_segment_sloppy : forall (eps : Epsilon) n (g : segment R), dim123 n ->
  let s := seg_bounding_sphere_sloppy n g in
  incl (in_segment n g) (in_ball n s) /\ incl (in_ball n (seg_bounding_sphere n g)) (in_ball n s).
Proof.
  intros eps n a Hn s. unfold s, seg_bounding_sphere_sloppy, seg_bounding_sphere, distance, n2. cbn [ndiv nsqrt nofZ Rnum].
  pose proof (sloppy_ge eps n Hn (end1 a) (end2 a)) as S. pose proof (dist_nonneg n (co (end1 a)) (co (end2 a))) as D.
  pose proof (sqrt_pos (squared_distance n (end1 a) (end2 a))) as P. rewrite !make_pos by lra. split.
  - intros x X. unfold in_ball. cbn [center radius]. eapply Rle_trans; [apply seg_half|]; eauto.
    + intros i Hi. unfold seg_center. rewrite mid_co by auto. unfold nhalf, n1, n2. cbn [ndiv nofZ Rnum]. change (IZR 1) with 1. change (IZR 2) with 2. field.
    + lra.
  - intros x X. unfold in_ball in *. cbn [center radius] in *. eapply Rle_trans; [exact X|].
    assert (sqrt (squared_distance n (end1 a) (end2 a)) <= dist n (co (end1 a)) (co (end2 a))) by (apply sqrt_le_1_alt; apply sqd_le). lra.
Qed.
Print Assumptions C43_segment_sloppy.

(** * Rotated boxes *)
Theorem C43_rotbox : forall (eps : Epsilon) n (r : rotbox R), orthogonal n (ent (orient r)) ->
  let s := rb_bounding_sphere n r in
  incl (in_rotbox n r) (in_ball n s) /\ (forall b, incl (in_rotbox n r) (in_ball n b) -> radius s <= radius b).
Proof.
  intros eps n r O s. unfold s, rb_bounding_sphere, n2. cbn [ndiv nofZ Rnum].
  assert (0 <= mag n (rsize r)) by (rewrite mag_norm; apply sqrt_pos). rewrite make_pos by lra. split.
  - intros x X. unfold in_ball. cbn [center radius]. now apply rb_half.
  - intros b I. cbn [radius].
    assert (A : in_rotbox n r (rb_at n r (fun _ => 0))) by (exists (fun _ => 0); split; [intros; lra|intros i Hi; reflexivity]).
    assert (Z : in_rotbox n r (rb_at n r (fun _ => 1))) by (exists (fun _ => 1); split; [intros; lra|intros i Hi; reflexivity]).
    pose proof (ball_two n b _ _ (I _ A) (I _ Z)) as T. rewrite (rb_diagonal eps) in T by auto. lra.
Qed.
Print Assumptions C43_rotbox.
(** A small square in standard position. *)
Definition rbs : rotbox R := mkRB (mkC [0; 0] true) (mkC [1/2; 1/2] true) (mkM [[1; 0]; [0; 1]] false true 1).
Lemma rbs_orth : orthogonal 2 (ent (orient rbs)).
Proof. intros i j Hi Hj. destruct i as [|[|]], j as [|[|]]; try lia; unfold mmul, mtr, ent, rc, delta; cbn; ring. Qed.
(** The sloppy sphere of a rotated box uses the squared magnitude as a length: it does not
    contain a box smaller than 1. *)
Theorem C43_rotbox_sloppy_refuted : forall (eps : Epsilon),
  ~ incl (in_rotbox 2 rbs) (in_ball 2 (rb_bounding_sphere_sloppy 2 rbs)) /\
  ~ incl (in_ball 2 (rb_bounding_sphere 2 rbs)) (in_ball 2 (rb_bounding_sphere_sloppy 2 rbs)).
Proof.
  intros eps.
  assert (S : sqr_mag 2 (rsize rbs) = 1 / 2) by (rewrite sqr_mag_norm2; unfold norm2, inner, co; cbn; field).
  assert (Z : ~ incl (in_rotbox 2 rbs) (in_ball 2 (rb_bounding_sphere_sloppy 2 rbs))).
  { intros I. unfold rb_bounding_sphere_sloppy, n2 in I. rewrite S in I. cbn [ndiv nofZ Rnum] in I. rewrite make_pos in I by lra.
    assert (A : in_rotbox 2 rbs (rb_at 2 rbs (fun _ => 0))) by (exists (fun _ => 0); split; [intros; lra|intros i Hi; reflexivity]).
    assert (B : in_rotbox 2 rbs (rb_at 2 rbs (fun _ => 1))) by (exists (fun _ => 1); split; [intros; lra|intros i Hi; reflexivity]).
    pose proof (ball_two 2 _ _ _ (I _ A) (I _ B)) as T. rewrite (rb_diagonal eps) in T by apply rbs_orth. unfold mag in T. rewrite S in T. cbn [nsqrt Rnum radius] in T.
    pose proof (sqrt_sqrt (1 / 2) ltac:(lra)). pose proof (sqrt_pos (1 / 2)). nra. }
  split; auto. intros I. apply Z. intros x X. apply I. now apply C43_rotbox; [apply rbs_orth|].
Qed.
Print Assumptions C43_rotbox_sloppy_refuted.
(** What holds: it contains the box when the diagonal is at least 1. *)
Theorem C43_rotbox_sloppy_partial : forall (eps : Epsilon) n (r : rotbox R), orthogonal n (ent (orient r)) -> 1 <= mag n (rsize r) ->
  let s := rb_bounding_sphere_sloppy n r in
  incl (in_rotbox n r) (in_ball n s) /\ incl (in_ball n (rb_bounding_sphere n r)) (in_ball n s).
Proof.
  intros eps n r O H1 s. unfold s, rb_bounding_sphere_sloppy, rb_bounding_sphere, n2. cbn [ndiv nofZ Rnum].
  assert (Q : sqr_mag n (rsize r) = mag n (rsize r) * mag n (rsize r)).
  { rewrite mag_norm. unfold norm. rewrite sqrt_sqrt by apply norm2_nonneg. apply sqr_mag_norm2. }
  rewrite Q. assert (mag n (rsize r) <= mag n (rsize r) * mag n (rsize r)) by nra. rewrite !make_pos by lra.
  split; intros x X; unfold in_ball in *; cbn [center radius] in *.
  - eapply Rle_trans; [now apply rb_half|]. lra.
  - lra.
Qed.
Print Assumptions C43_rotbox_sloppy_partial.

(** * Bounding boxes of balls and segments *)
(** Both are the smallest box: contained in every box that contains the shape. *)
Theorem C40_ball_bounding_box : forall (eps : Epsilon) n (b : ball R), 0 <= radius b ->
  let a := ball_bounding_box n b in
  incl (in_ball n b) (in_box n a) /\ (forall c, incl (in_ball n b) (in_box n c) -> incl (in_box n a) (in_box n c)).
Proof.
  intros eps n b Hr a.
  assert (L : forall i, (i < n)%nat -> co (low a) i = co (center b) i - radius b) by (intros i Hi; unfold a, ball_bounding_box, box_corners; cbn [low]; rewrite co_tab by auto; reflexivity).
  assert (U : forall i, (i < n)%nat -> co (high a) i = co (center b) i + radius b) by (intros i Hi; unfold a, ball_bounding_box, box_corners; cbn [high]; rewrite co_tab by auto; reflexivity).
  split.
  - intros x X i Hi. rewrite L, U by auto. unfold in_ball in X. pose proof (coord_le_dist n (co (center b)) x i Hi).
    pose proof (Rabs_le_inv _ _ (Rle_trans _ _ _ H X)). lra.
  - intros c I x X i Hi. specialize (X i Hi). rewrite L, U in X by auto.
    destruct (extreme_point n (co (center b)) (radius b) i Hi Hr) as [P M].
    pose proof (I _ (Req_le _ _ P) i Hi) as IP. pose proof (I _ (Req_le _ _ M) i Hi) as IM. cbn beta in IP, IM. rewrite delta_same in IP, IM. lra.
Qed.
Print Assumptions C40_ball_bounding_box.
Theorem C40_segment_bounding_box : forall (eps : Epsilon) n (g : segment R),
  let a := seg_bounding_box n g in
  incl (in_segment n g) (in_box n a) /\ (forall c, incl (in_segment n g) (in_box n c) -> incl (in_box n a) (in_box n c)).
Proof.
  intros eps n g a. unfold a, seg_bounding_box.
  assert (C : forall i, (i < n)%nat -> co (low (box_corners n (end1 g) (end2 g) false)) i = Rmin (co (end1 g) i) (co (end2 g) i) /\
                         co (high (box_corners n (end1 g) (end2 g) false)) i = Rmax (co (end1 g) i) (co (end2 g) i)) by (intros; now apply corners_unordered).
  split.
  - intros x (t & Ht & X) i Hi. destruct (C i Hi) as [-> ->]. rewrite X by auto. unfold seg_at. unfold Rmin, Rmax. destruct Rle_dec; split; nra.
  - intros c I x X i Hi. specialize (X i Hi). destruct (C i Hi) as [E F]. rewrite E, F in X. destruct (seg_ends n g) as [P Q].
    pose proof (I _ P i Hi). pose proof (I _ Q i Hi). unfold Rmin, Rmax in X. destruct Rle_dec; lra.
Qed.
Print Assumptions C40_segment_bounding_box.
