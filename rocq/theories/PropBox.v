(** C39-C41: axis boxes. *)
From Coq Require Import ZArith NArith Reals Bool List Lia Lra SpecFloat Permutation.
From Flocq Require Import Core.Raux.
From Verif Require Import Base Scalar ConstModel VecModel RotModel QuatModel ShapeModel IntersectModel RSpec VecSpec RotSpec ShapeSpec ConstSpec RLib OrdLib B64Lib B64Ops VecProofs VecProofs4 ShapeProofs ShapeProofs2 ShapeProofs3.
Import ListNotations.
Open Scope R_scope.

(** Sample boxes: the unit square and the square from (1/2,1/2) to (3,3). *)
Definition sq1 : axisbox R := mkB (mkC [0; 0] true) (mkC [1; 1] true).
Definition sq2 : axisbox R := mkB (mkC [1/2; 1/2] true) (mkC [3; 3] true).
Ltac two := intros i Hi; destruct i as [|[|i]]; [| |exfalso; lia]; unfold co; cbn; try lra.
Lemma sq_thick : box_thick 2 sq1 /\ box_thick 2 sq2. Proof. split; two. Qed.
Lemma thick_ordered n b : box_thick n b -> box_ordered n b. Proof. intros H i Hi. specialize (H i Hi). lra. Qed.

(** * C39 *)
(** Exact comparisons (epsilon = 0): closed set without, interior with [proper]. *)
Theorem C39_point_exact : forall n (b : axisbox R) (p : point R),
  (i_box_point (H := Rnum 0) n b p false = true <-> in_box n b (co p)) /\
  (i_box_point (H := Rnum 0) n b p true = true <-> in_box_open n b (co p)).
Proof. intros. split; [rewrite in_box_near; apply (box_point 0)|apply (box_point_proper 0)]. Qed.
Print Assumptions C39_point_exact.
Example C39_point_example : in_box 2 sq1 (co (mk2 1 (1/2))) /\ ~ in_box_open 2 sq1 (co (mk2 1 (1/2))) /\ in_box_open 2 sq1 (co (mk2 (1/3) (1/2))).
Proof. split; [|split]; [two| |two]. intros H. specialize (H 0%nat (Nat.lt_0_succ 1)). unfold co in H. cbn in H. lra. Qed.

(** With the library epsilon the closed test accepts exactly the points within epsilon of
    the box in every coordinate; the proper test is exact. *)
Theorem C39_point_tolerance : forall (eps : Epsilon) n (b : axisbox R) (p : point R),
  (i_box_point n b p false = true <-> near_box n eps b (co p)) /\
  (i_box_point n b p true = true <-> in_box_open n b (co p)).
Proof. intros. split; [apply box_point|apply box_point_proper]. Qed.
Print Assumptions C39_point_tolerance.

(** Doubles: the closed test accepts every point within epsilon and no point further away
    than epsilon by more than a relative 2^-52; the proper test is exact. *)
Theorem C39_point_double : forall (m : libm) n (b : axisbox spec_float) (p : point spec_float),
  dpoint n (low b) -> dpoint n (high b) -> dpoint n p ->
  (near_box n deps (dbox b) (co (dval p)) -> i_box_point (H := B64 m) n b p false = true) /\
  (i_box_point (H := B64 m) n b p false = true -> near_box n (deps * (1 + bpow Zaux.radix2 (-52))) (dbox b) (co (dval p))) /\
  (i_box_point (H := B64 m) n b p true = true <-> in_box_open n (dbox b) (co (dval p))).
Proof. apply box_point_double. Qed.
Print Assumptions C39_point_double.
Example C39_point_double_example : let z := mkC [b64_ofZ 0; b64_ofZ 0] true in let o := mkC [b64_ofZ 3; b64_ofZ 2] true in
  dpoint 2 z /\ dpoint 2 o /\ forall m, i_box_point (H := B64 m) 2 (mkB z o) (mkC [b64_ofZ 1; b64_ofZ 2] true) false = true.
Proof. split; [|split]; [intros [|[|i]] Hi; [split; reflexivity..|lia]| intros [|[|i]] Hi; [split; reflexivity..|lia]|]. intros m. reflexivity. Qed.

Theorem C39_boxes_exact : forall n (a b : axisbox R), box_ordered n a -> box_ordered n b ->
  (i_box_box (H := Rnum 0) n a b false = true <-> meet (in_box n a) (in_box n b)) /\
  (box_thick n a -> box_thick n b -> (i_box_box (H := Rnum 0) n a b true = true <-> meet (in_box_open n a) (in_box_open n b))).
Proof.
  intros n a b Oa Ob. split.
  - rewrite (box_box 0) by (auto; unfold epsilon; lra). split.
    + intros (x & y & X & Y & C). exists x. split; auto. intros i Hi. specialize (Y i Hi). specialize (C i Hi).
      apply Rabs_le_inv in C. lra.
    + intros (x & X & Y). exists x, x. repeat split; auto; try (apply X; auto); try (apply Y; auto).
      intros i Hi. rewrite Rminus_diag_eq, Rabs_R0 by auto. lra.
  - intros Ta Tb. now apply (box_box_proper 0).
Qed.
Print Assumptions C39_boxes_exact.
Example C39_boxes_example : box_thick 2 sq1 /\ box_thick 2 sq2 /\ meet (in_box_open 2 sq1) (in_box_open 2 sq2).
Proof. split; [apply sq_thick|split; [apply sq_thick|]]. exists (fun _ => 3/4). split; two. Qed.

Theorem C39_boxes_tolerance : forall (eps : Epsilon) n (a b : axisbox R), 0 <= (eps : R) -> box_ordered n a -> box_ordered n b ->
  (i_box_box n a b false = true <-> exists x y, in_box n a x /\ in_box n b y /\ close n eps x y) /\
  (box_thick n a -> box_thick n b -> (i_box_box n a b true = true <-> meet (in_box_open n a) (in_box_open n b))).
Proof. intros. split; [now apply box_box|]. now apply box_box_proper. Qed.
Print Assumptions C39_boxes_tolerance.

(** A box without interior can still "properly" intersect another one. *)
Theorem C39_flat_boxes_refuted : exists a b : axisbox R, box_ordered 2 a /\ box_thick 2 b /\
  i_box_box (H := Rnum 0) 2 a b true = true /\ forall x, ~ in_box_open 2 a x.
Proof.
  exists (mkB (mkC [1/2; 0] true) (mkC [1/2; 1] true)), sq1. split; [two|split; [two|split]].
  - apply (box_box_coord_proper 0). two.
  - intros x X. specialize (X 0%nat (Nat.lt_0_succ 1)). unfold co in X. cbn in X. lra.
Qed.
Print Assumptions C39_flat_boxes_refuted.

Theorem C39_contains_exact : forall n (a b : axisbox R), box_ordered n b ->
  (c_box_box (H := Rnum 0) n a b false = true <-> incl (in_box n b) (in_box n a)) /\
  (c_box_box (H := Rnum 0) n a b true = true <-> incl (in_box n b) (in_box_open n a)).
Proof.
  intros n a b O. split; [|now apply (contains_box_proper 0)].
  rewrite (contains_box 0) by (auto; unfold epsilon; lra). unfold incl. split; intros I x X; apply (in_box_near n a x); auto.
Qed.
Print Assumptions C39_contains_exact.
Example C39_contains_example : box_ordered 2 sq1 /\ incl (in_box 2 sq1) (in_box_open 2 (mkB (mkC [-1; -1] true) (mkC [3; 3] true))).
Proof. split; [apply thick_ordered, sq_thick|]. intros x X i Hi. specialize (X i Hi). destruct i as [|[|i]]; [| |lia]; unfold co in *; cbn in *; lra. Qed.

Theorem C39_contains_tolerance : forall (eps : Epsilon) n (a b : axisbox R), 0 <= (eps : R) -> box_ordered n b ->
  (c_box_box n a b false = true <-> incl (in_box n b) (near_box n eps a)) /\
  (c_box_box n a b true = true <-> incl (in_box n b) (in_box_open n a)).
Proof. intros. split; [now apply contains_box|now apply contains_box_proper]. Qed.
Print Assumptions C39_contains_tolerance.

(** Intersect(a, b) is Intersect(b, a) for every number type, doubles included. *)
Theorem C39_symmetric : forall T (N : Num T) n (a b : axisbox T) proper, i_box_box n a b proper = i_box_box n b a proper.
Proof. intros. apply box_box_sym. Qed.
Print Assumptions C39_symmetric.

(** * C40 *)
(** [out0] is the value of the output argument before the call. *)
Theorem C40_intersection : forall (eps : Epsilon) n (a b out0 : axisbox R) ok out,
  box_dims n out0 -> box_ordered n a -> box_ordered n b -> box_intersection n a b out0 = (ok, out) ->
  (ok = true <-> meet (in_box n a) (in_box n b)) /\
  (ok = true -> (forall x, in_box n out x <-> in_box n a x /\ in_box n b x) /\ box_valid out = box_valid a && box_valid b).
Proof.
  intros eps n a b out0 ok out D Oa Ob E. destruct (intersection_spec eps n a b out0 ok out D Oa Ob E) as (_ & A & B & _).
  split; auto. intros O. destruct (B O) as (B1 & _ & B3). auto.
Qed.
Print Assumptions C40_intersection.
Example C40_intersection_example : forall eps : Epsilon, exists ok out, box_dims 2 (box_default 2) /\ box_intersection 2 sq1 sq2 (box_default 2) = (ok, out) /\ ok = true.
Proof.
  intros eps. destruct (box_intersection 2 sq1 sq2 (box_default 2)) as [ok out] eqn:E. exists ok, out.
  split; [split; reflexivity|split; auto]. apply (C40_intersection eps 2 sq1 sq2 (box_default 2) ok out); auto.
  - split; reflexivity.
  - apply thick_ordered, sq_thick.
  - apply thick_ordered, sq_thick.
  - exists (fun _ => 3/4). split; two.
Qed.

Theorem C40_union : forall (eps : Epsilon) n (a b : axisbox R), box_ordered n a -> box_ordered n b ->
  let u := box_union n a b in
  incl (in_box n a) (in_box n u) /\ incl (in_box n b) (in_box n u) /\
  (forall c, incl (in_box n a) (in_box n c) -> incl (in_box n b) (in_box n c) -> incl (in_box n u) (in_box n c)) /\
  box_valid u = box_valid a && box_valid b.
Proof. intros eps n a b Oa Ob. destruct (union_spec eps n a b Oa Ob) as (_ & _ & V & A & B & C). auto. Qed.
Print Assumptions C40_union.
Example C40_union_example : box_ordered 2 sq1 /\ box_ordered 2 sq2. Proof. split; apply thick_ordered, sq_thick. Qed.

(** BoundingBox(points): smallest box with all the points, in any order. *)
Theorem C40_bounding_points : forall (eps : Epsilon) n (c : list (point R)), c <> [] -> (forall p, In p c -> dims n p) ->
  let b := bounding_points n c in
  (forall p, In p c -> in_box n b (co p)) /\
  (forall b', (forall p, In p c -> in_box n b' (co p)) -> incl (in_box n b) (in_box n b')) /\
  box_ordered n b /\ box_valid b = forallb valid c /\
  forall c', Permutation c c' -> bounding_points n c' = b.
Proof.
  intros eps n c Hc D b. destruct (bounding_points_spec eps n c Hc D) as (_ & O & V & A & B). fold b in O, V, A, B.
  repeat split; auto; try (now apply A); try (now apply (B b')). intros c' P. symmetry. now apply bounding_points_perm.
Qed.
Print Assumptions C40_bounding_points.
Example C40_bounding_points_example : let c := [mk2 1 2; mk2 0 5; mk2 (-1) 3] in c <> [] /\ (forall p, In p c -> dims 2 p) /\ forallb valid c = true.
Proof. split; [discriminate|split; [|reflexivity]]. intros p [<-|[<-|[<-|[]]]]; reflexivity. Qed.

Theorem C40_bounding_boxes : forall (eps : Epsilon) n (c : list (axisbox R)), c <> [] -> (forall a, In a c -> box_dims n a /\ box_ordered n a) ->
  let b := bounding_boxes n c in
  (forall a, In a c -> incl (in_box n a) (in_box n b)) /\
  (forall b', (forall a, In a c -> incl (in_box n a) (in_box n b')) -> incl (in_box n b) (in_box n b')) /\
  box_ordered n b /\ box_valid b = forallb box_valid c /\
  forall c', Permutation c c' -> bounding_boxes n c' = b.
Proof.
  intros eps n c Hc D b. destruct (bounding_boxes_spec eps n c Hc D) as (_ & O & V & A & B). fold b in O, V, A, B.
  split; [exact A|split; [exact B|split; [auto|split; [auto|]]]]. intros c' P. symmetry. now apply bounding_boxes_perm.
Qed.
Print Assumptions C40_bounding_boxes.
Example C40_bounding_boxes_example : [sq1; sq2] <> [] /\ forall a, In a [sq1; sq2] -> box_dims 2 a /\ box_ordered 2 a.
Proof. split; [discriminate|]. intros a [<-|[<-|[]]]; (split; [split; reflexivity|apply thick_ordered, sq_thick]). Qed.

(** Empty lists give an invalid box. *)
Theorem C40_empty : forall T (N : Num T) n, box_valid (bounding_points (T := T) n []) = false /\ box_valid (bounding_boxes (T := T) n []) = false.
Proof. intros. split; reflexivity. Qed.
Print Assumptions C40_empty.

(** * C41 *)
(** setCorners: per coordinate the smaller number goes to the low corner, in either order
    of the arguments. *)
Theorem C41_set_corners : forall (eps : Epsilon) n (p q : point R), let b := box_corners n p q false in
  (forall i, (i < n)%nat -> co (low b) i = Rmin (co p i) (co q i) /\ co (high b) i = Rmax (co p i) (co q i)) /\
  box_ordered n b /\ in_box n b (co p) /\ in_box n b (co q) /\
  (forall b', in_box n b' (co p) -> in_box n b' (co q) -> incl (in_box n b) (in_box n b')) /\
  b = box_corners n q p false.
Proof.
  intros eps n p q b. destruct (corners_unordered eps n p q) as (D & V & E). fold b in D, V, E.
  split; [exact E|]. assert (E' : forall i, (i < n)%nat -> co (low b) i <= co p i <= co (high b) i /\ co (low b) i <= co q i <= co (high b) i).
  { intros i Hi. destruct (E i Hi) as [-> ->]. unfold Rmin, Rmax. destruct Rle_dec; lra. }
  split; [|split; [|split; [|split]]].
  - intros i Hi. specialize (E' i Hi). lra.
  - intros i Hi. now apply E'.
  - intros i Hi. now apply E'.
  - intros b' P Q x X i Hi. specialize (P i Hi). specialize (Q i Hi). specialize (X i Hi). destruct (E i Hi) as [E1 E2].
    rewrite E1, E2 in X. unfold Rmin, Rmax in X. destruct Rle_dec; lra.
  - destruct (corners_unordered eps n q p) as (D' & V' & F). unfold b in *. set (b1 := box_corners n p q false) in *. set (b2 := box_corners n q p false) in *.
    assert (A : forall i, (i < n)%nat -> co (low b1) i = co (low b2) i /\ co (high b1) i = co (high b2) i).
    { intros i Hi. destruct (E i Hi) as [-> ->], (F i Hi) as [-> ->]. split; [apply Rmin_comm|apply Rmax_comm]. }
    assert (L : low b1 = low b2) by (apply (coords_eq n); [apply D|apply D'|reflexivity|intros; now apply A]).
    assert (H : high b1 = high b2) by (apply (coords_eq n); [apply D|apply D'|reflexivity|intros; now apply A]).
    destruct b1 as [l1 h1], b2 as [l2 h2]. cbn [low high] in L, H. now rewrite L, H.
Qed.
Print Assumptions C41_set_corners.
Theorem C41_set_corners_ordered : forall T (N : Num T) n (p q : point T), box_corners n p q true = mkB p q.
Proof. reflexivity. Qed.
Print Assumptions C41_set_corners_ordered.

(** getCorner: bit j of the index chooses between the low and the high coordinate; the
    2^dim indices give 2^dim different corners and every corner has an index. *)
Theorem C41_corners : forall (eps : Epsilon) n (b : axisbox R), box_ordered n b ->
  (forall c, (c < 2 ^ N.of_nat n)%N -> in_box n b (co (box_corner n b c)) /\
     forall i, (i < n)%nat -> co (box_corner n b c) i = co (low b) i \/ co (box_corner n b c) i = co (high b) i) /\
  (forall f : nat -> bool, exists c, (c < 2 ^ N.of_nat n)%N /\ forall i, (i < n)%nat -> co (box_corner n b c) i = if f i then co (high b) i else co (low b) i) /\
  (box_thick n b -> forall c d, (c < 2 ^ N.of_nat n)%N -> (d < 2 ^ N.of_nat n)%N -> c <> d -> ~ pteq n (co (box_corner n b c)) (co (box_corner n b d))) /\
  co (box_corner n b 0) = co (low b) /\ pteq n (co (box_corner n b (2 ^ N.of_nat n - 1))) (co (high b)) /\
  (box_valid b = true -> forall c, valid (box_corner n b c) = true).
Proof.
  intros eps n b O. split; [|split; [|split; [|split; [|split]]]].
  - intros c Hc. split; [now apply corner_in_box|]. intros i Hi. rewrite (corner_co eps) by auto. destruct N.testbit; auto.
  - intros f. destruct (pattern_exists n f) as (c & Hc & P). exists c. split; auto. intros i Hi. rewrite (corner_co eps) by auto. now rewrite P.
  - intros Th c d Hc Hd Ne E. destruct (pattern_unique n c d Hc Hd Ne) as (i & Hi & Q). specialize (E i Hi). rewrite !(corner_co eps) in E by auto.
    specialize (Th i Hi). destruct (N.testbit c (N.of_nat i)), (N.testbit d (N.of_nat i)); try congruence; lra.
  - reflexivity.
  - intros i Hi. rewrite (corner_co eps); auto.
    + rewrite N.sub_1_r, <- N.ones_equiv, N.ones_spec_low by lia. reflexivity.
    + pose proof (N.pow_nonzero 2 (N.of_nat n)). lia.
  - intros V c. now apply corner_valid.
Qed.
Print Assumptions C41_corners.
Example C41_corners_example : box_thick 2 sq1 /\ box_valid sq1 = true /\ (3 < 2 ^ N.of_nat 2)%N.
Proof. split; [apply sq_thick|]. split; reflexivity. Qed.

(** shift translates the set of points; moveCornerTo and moveCenterTo are shifts that put
    the corner (the centre) at the target. *)
Theorem C41_moves : forall (eps : Epsilon) n (b : axisbox R) (v p : coords R) c,
  dims n p -> box_valid b = true -> (c < 2 ^ N.of_nat n)%N ->
  (forall x, in_box n (box_shift n b v) (fun i => x i + co v i) <-> in_box n b x) /\
  (exists w, box_move_corner n b p c = box_shift n b w) /\ box_corner n (box_move_corner n b p c) c = p /\
  (exists w, box_move_center n b p = box_shift n b w) /\ box_center n (box_move_center n b p) = p /\
  (forall i, (i < n)%nat -> co (box_center n b) i = (co (low b) i + co (high b) i) / 2).
Proof.
  intros eps n b v p c D V Hc. split; [|split; [|split; [|split; [|split]]]]; try (eexists; reflexivity).
  - intros x. apply shift_in_box.
  - now apply move_corner_spec.
  - now apply move_center_spec.
  - intros i Hi. now apply center_co.
Qed.
Print Assumptions C41_moves.
Example C41_moves_example : dims 2 (mk2 4 5) /\ box_valid sq1 = true /\ (2 < 2 ^ N.of_nat 2)%N. Proof. repeat split. Qed.

Theorem C41_equality :
  (forall (eps : Epsilon) n (b : axisbox R) e, 0 <= e -> box_valid b = true -> box_equal n b b e = true) /\
  (forall m n (b : axisbox spec_float) e, box_dims n b -> box_valid b = true -> Forall finite_double (el (low b)) -> Forall finite_double (el (high b)) ->
     tolerance e -> box_equal (H := B64 m) n b b e = true) /\
  (forall T (N : Num T) n (a b : axisbox T) e, box_valid a = false \/ box_valid b = false -> box_equal n a b e = false).
Proof.
  split; [|split].
  - intros. now apply box_equal_refl.
  - intros m n b e [D1 D2] V F1 F2 Te. unfold box_valid in V. apply andb_prop in V. destruct V.
    unfold box_equal. rewrite !vec_equal_b64_refl; auto.
  - intros. now apply box_equal_invalid.
Qed.
Print Assumptions C41_equality.

(** setCorners with unordered points marks the box valid even if a point is not (C14). *)
Theorem C14_set_corners_refuted : forall T (N : Num T) n (p q : point T), box_valid (box_corners n p q false) = true.
Proof. reflexivity. Qed.
Print Assumptions C14_set_corners_refuted.
