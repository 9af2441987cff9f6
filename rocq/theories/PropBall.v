(** C42: balls. *)
From Coq Require Import ZArith NArith Reals Bool List Lia Lra Psatz SpecFloat.
From Flocq Require Import Core.Raux Core.Defs IEEE754.BinarySingleNaN.
From Verif Require Import Base Scalar ConstModel VecModel RotModel QuatModel ShapeModel IntersectModel RSpec VecSpec RotSpec ShapeSpec RLib OrdLib B64Lib VecProofs VecProofs4 ShapeProofs ShapeProofs2 ShapeProofs3 PropBox BallProofs.
Import ListNotations.
Open Scope R_scope.

(** Sample balls in the plane: radius 5 about (1,2), radius 1 about (4,6), radius 1 about (2,2). *)
Definition ball1 : ball R := mkBall (mkC [1; 2] true) 5.
Definition ball2 : ball R := mkBall (mkC [4; 6] true) 1.
Definition ball3 : ball R := mkBall (mkC [2; 2] true) 1.
Lemma dist12 : dist 2 (co (center ball1)) (co (center ball2)) = 5.
Proof. unfold dist, dist2, norm2, inner, co. cbn. replace (_ + _) with (5 * 5) by ring. apply sqrt_square. lra. Qed.
Lemma dist13 : dist 2 (co (center ball1)) (co (center ball3)) = 1.
Proof. unfold dist, dist2, norm2, inner, co. cbn. replace (_ + _) with (1 * 1) by ring. apply sqrt_square. lra. Qed.

(** * Ball and point *)
(** Exact comparisons: closed ball without, interior with [proper]. *)
Theorem C42_point_exact : forall n (b : ball R) (p : point R), 0 <= radius b ->
  (i_ball_point (H := Rnum 0) n b p false = true <-> in_ball n b (co p)) /\
  (i_ball_point (H := Rnum 0) n b p true = true <-> in_ball_open n b (co p)).
Proof.
  intros n b p Hr. rewrite in_ball_sqr, in_ball_open_sqr by auto. unfold i_ball_point.
  rewrite (less_eq_false 0), (less_eq_proper 0), (sqd0 n). cbn [nmul nadd n1 nofZ neps Rnum]. split; split; lra.
Qed.
Print Assumptions C42_point_exact.
Example C42_point_example : 0 <= radius ball1 /\ in_ball 2 ball1 (co (center ball2)) /\ ~ in_ball_open 2 ball1 (co (center ball2)) /\ in_ball_open 2 ball1 (co (center ball3)).
Proof. unfold in_ball, in_ball_open. rewrite dist12, dist13. cbn. lra. Qed.

(** With the library epsilon: no point of the ball is rejected, and an accepted point is
    within the stated margin of the ball. *)
Theorem C42_point_tolerance : forall (eps : Epsilon) n (b : ball R) (p : point R) B,
  0 <= (eps : R) -> 0 <= radius b -> 1 <= B -> dims n (center b) -> dims n p -> bounded_by n (center b) B -> bounded_by n p B ->
  (in_ball n b (co p) -> i_ball_point n b p false = true) /\
  (forall proper, i_ball_point n b p proper = true -> dist2 n (co (center b)) (co p) <= radius b * radius b * (1 + eps) + 2 * eps * B) /\
  (in_ball_open n b (co p) -> i_ball_point n b p true = true).
Proof.
  intros eps n b p B He Hr HB Dc Dp Bc Bp. rewrite in_ball_sqr, in_ball_open_sqr by auto. unfold i_ball_point.
  pose proof (sqd_le eps n (center b) p) as L. pose proof (sqd_ge eps n (center b) p B He HB Dc Dp Bc Bp) as U.
  assert (0 <= radius b * radius b * eps) by (apply Rmult_le_pos; auto; apply Rmult_le_pos; auto).
  split; [|split].
  - intros E. rewrite less_eq_false. cbn [nmul nadd n1 nofZ neps Rnum]. lra.
  - intros [] E; [rewrite less_eq_proper in E|rewrite less_eq_false in E]; cbn [nmul nadd n1 nofZ neps Rnum] in E; lra.
  - intros E. rewrite less_eq_proper. cbn [nmul nadd n1 nofZ neps Rnum]. lra.
Qed.
Print Assumptions C42_point_tolerance.
Example C42_point_tolerance_example : dims 2 (center ball1) /\ bounded_by 2 (center ball1) 2 /\ bounded_by 2 (center ball3) 2.
Proof. split; [reflexivity|]. split; two; unfold Rabs; destruct Rcase_abs; lra. Qed.

(** For every positive epsilon the proper test accepts a point outside the closed ball. *)
Theorem C42_point_proper_refuted : forall (eps : Epsilon), 0 < (eps : R) < 1 ->
  exists (b : ball R) (p : point R), 0 < radius b /\ i_ball_point 2 b p true = true /\ ~ in_ball 2 b (co p).
Proof.
  intros eps He. exists (mkBall (mkC [0; 0] true) 1), (mkC [1 + eps / 4; 0] true). split; [cbn; lra|]. split.
  - unfold i_ball_point. rewrite less_eq_proper. cbn [nmul nadd n1 nofZ neps Rnum center radius].
    eapply Rle_lt_trans; [apply sqd_le|]. unfold dist2, norm2, inner, co. cbn. nra.
  - rewrite in_ball_sqr by (cbn; lra). unfold dist2, norm2, inner, co. cbn. nra.
Qed.
Print Assumptions C42_point_proper_refuted.

(** * Two balls *)
Theorem C42_balls_exact : forall n (a b : ball R), 0 <= radius a -> 0 <= radius b ->
  (i_ball_ball (H := Rnum 0) n a b false = true <-> meet (in_ball n a) (in_ball n b)) /\
  (0 < radius a -> 0 < radius b ->
   (i_ball_ball (H := Rnum 0) n a b true = true <-> meet (in_ball_open n a) (in_ball_open n b))).
Proof.
  intros n a b Ha Hb. unfold i_ball_ball. rewrite (less_eq_false 0), (less_eq_proper 0), (sqd0 n). cbn [nmul nadd Rnum]. split.
  - unfold meet, in_ball. rewrite balls_meet by auto. unfold dist. rewrite sqrt_le_iff; [reflexivity|apply dist2_nonneg|lra].
  - intros Pa Pb. unfold meet, in_ball_open. rewrite balls_meet_open by auto. unfold dist. rewrite sqrt_lt_iff; [reflexivity|apply dist2_nonneg|lra].
Qed.
Print Assumptions C42_balls_exact.
(** The two sample balls overlap; the radius 1 balls about (2,2) and (4,6) do not. *)
Example C42_balls_example : meet (in_ball_open 2 ball1) (in_ball_open 2 ball2) /\ ~ meet (in_ball 2 ball2) (in_ball 2 ball3).
Proof.
  split.
  - unfold meet, in_ball_open. apply balls_meet_open; rewrite ?dist12; cbn; lra.
  - unfold meet, in_ball. rewrite balls_meet by (cbn; lra). unfold dist. cbn [radius ball2 ball3]. rewrite sqrt_le_iff; [|apply dist2_nonneg|lra].
    unfold dist2, norm2, inner, co. cbn. lra.
Qed.

Theorem C42_balls_tolerance : forall (eps : Epsilon) n (a b : ball R) B,
  0 <= (eps : R) -> 0 <= radius a -> 0 <= radius b -> 1 <= B -> dims n (center a) -> dims n (center b) -> bounded_by n (center a) B -> bounded_by n (center b) B ->
  (meet (in_ball n a) (in_ball n b) -> i_ball_ball n a b false = true) /\
  (meet (in_ball_open n a) (in_ball_open n b) -> i_ball_ball n a b true = true) /\
  (forall proper, i_ball_ball n a b proper = true -> dist2 n (co (center a)) (co (center b)) <= (radius a + radius b) * (radius a + radius b) + 2 * eps * B).
Proof.
  intros eps n a b B He Ha Hb HB Da Db Ba Bb. unfold i_ball_ball. cbn zeta.
  pose proof (sqd_le eps n (center a) (center b)) as L. pose proof (sqd_ge eps n (center a) (center b) B He HB Da Db Ba Bb) as U.
  split; [|split].
  - intros M. apply balls_meet in M; auto. unfold dist in M. rewrite sqrt_le_iff in M; [|apply dist2_nonneg|lra].
    rewrite less_eq_false. cbn [nmul nadd Rnum]. lra.
  - intros (x & X & Y). unfold in_ball_open in X, Y. pose proof (dist_nonneg n (co (center a)) x). pose proof (dist_nonneg n (co (center b)) x).
    assert (M : dist n (co (center a)) (co (center b)) < radius a + radius b) by (apply balls_meet_open; [lra|lra|]; exists x; auto).
    unfold dist in M. rewrite sqrt_lt_iff in M; [|apply dist2_nonneg|lra]. rewrite less_eq_proper. cbn [nmul nadd Rnum]. lra.
  - intros [] E; [rewrite less_eq_proper in E|rewrite less_eq_false in E]; cbn [nmul nadd Rnum] in E; lra.
Qed.
Print Assumptions C42_balls_tolerance.

(** The test is symmetric, over the reals and for all doubles including NaN. *)
Theorem C42_symmetric :
  (forall (eps : Epsilon) n (a b : ball R) proper, i_ball_ball n a b proper = i_ball_ball n b a proper) /\
  (forall (m : libm) n (a b : ball spec_float) proper, i_ball_ball (H := B64 m) n a b proper = i_ball_ball (H := B64 m) n b a proper).
Proof.
  split; intros.
  - unfold i_ball_ball. rewrite sqd_sym. cbn [nadd Rnum]. rewrite Rplus_comm. reflexivity.
  - apply ball_ball_b64_sym.
Qed.
Print Assumptions C42_symmetric.

(** Inclusion of one ball in another; [proper]: in the interior. *)
Theorem C42_contains_ball_exact : forall n (outer inner : ball R), (0 < n)%nat -> 0 <= radius inner ->
  (c_ball_ball (H := Rnum 0) n outer inner false = true <-> incl (in_ball n inner) (in_ball n outer)) /\
  (c_ball_ball (H := Rnum 0) n outer inner true = true <-> incl (in_ball n inner) (in_ball_open n outer)).
Proof.
  intros n o i Hn Hi. unfold incl, in_ball, in_ball_open. rewrite ball_incl, ball_incl_open by auto.
  pose proof (dist_nonneg n (co (center o)) (co (center i))) as D. unfold c_ball_ball. cbn zeta. split.
  - destruct (less_ _ _ false) eqn:L.
    + apply Bool.not_false_iff_true in L. rewrite (less_false 0) in L. cbn [nsub n0 nofZ Rnum] in L. split; [discriminate|]. intros. exfalso. apply L. unfold epsilon. lra.
    + apply (less_false 0) in L. cbn [nsub n0 nofZ Rnum] in L. unfold epsilon in L.
      rewrite (less_eq_false 0), (sqd0 n). cbn [nsub nmul Rnum]. unfold dist. rewrite <- sqrt_le_iff; [|apply dist2_nonneg|lra]. split; lra.
  - destruct (less_ _ _ true) eqn:L.
    + apply Bool.not_false_iff_true in L. rewrite (less_proper 0) in L. cbn [nsub n0 nofZ Rnum] in L. split; [discriminate|]. intros. exfalso. apply L. lra.
    + apply (less_proper 0) in L. cbn [nsub n0 nofZ Rnum] in L.
      rewrite (less_eq_proper 0), (sqd0 n). cbn [nsub nmul Rnum]. unfold dist. rewrite <- sqrt_lt_iff; [|apply dist2_nonneg|lra]. split; lra.
Qed.
Print Assumptions C42_contains_ball_exact.
Example C42_contains_example : incl (in_ball 2 ball3) (in_ball_open 2 ball1) /\ ~ incl (in_ball 2 ball2) (in_ball 2 ball1).
Proof.
  unfold incl, in_ball, in_ball_open. rewrite ball_incl, ball_incl_open by (cbn; lia || lra). rewrite dist12, dist13. cbn. lra.
Qed.

Theorem C42_contains_ball_tolerance : forall (eps : Epsilon) n (outer inner : ball R) B, (0 < n)%nat ->
  0 <= (eps : R) -> 0 <= radius inner -> 1 <= B -> dims n (center outer) -> dims n (center inner) -> bounded_by n (center outer) B -> bounded_by n (center inner) B ->
  (incl (in_ball n inner) (in_ball n outer) -> c_ball_ball n outer inner false = true) /\
  (incl (in_ball n inner) (in_ball_open n outer) -> c_ball_ball n outer inner true = true) /\
  (forall proper, c_ball_ball n outer inner proper = true -> radius inner <= radius outer + eps /\
    dist2 n (co (center outer)) (co (center inner)) <= (radius outer - radius inner) * (radius outer - radius inner) + 2 * eps * B).
Proof.
  intros eps n o i B Hn He Hi HB Do Di Bo Bi. unfold incl, in_ball, in_ball_open. rewrite ball_incl, ball_incl_open by auto.
  pose proof (dist_nonneg n (co (center o)) (co (center i))) as D. unfold c_ball_ball. cbn zeta.
  pose proof (sqd_le eps n (center o) (center i)) as L. pose proof (sqd_ge eps n (center o) (center i) B He HB Do Di Bo Bi) as U.
  split; [|split].
  - intros E. assert (F : less_ (radius o - radius i)%num n0 false = false) by (apply less_false; cbn [nsub n0 nofZ Rnum]; lra). rewrite F.
    rewrite less_eq_false. cbn [nsub nmul Rnum]. eapply Rle_trans; [exact L|]. rewrite <- sqrt_le_iff; [|apply dist2_nonneg|lra]. fold (dist n (co (center o)) (co (center i))). lra.
  - intros E. assert (F : less_ (radius o - radius i)%num n0 true = false) by (apply less_proper; cbn [nsub n0 nofZ Rnum]; lra). rewrite F.
    rewrite less_eq_proper. cbn [nsub nmul Rnum]. eapply Rle_lt_trans; [exact L|]. rewrite <- sqrt_lt_iff; [|apply dist2_nonneg|lra]. fold (dist n (co (center o)) (co (center i))). lra.
  - intros []; destruct (less_ _ _ _) eqn:F; try discriminate; intros E.
    + apply less_proper in F. rewrite less_eq_proper in E. cbn [nsub nmul n0 nofZ Rnum] in *. lra.
    + apply less_false in F. rewrite less_eq_false in E. cbn [nsub nmul n0 nofZ Rnum] in *. lra.
Qed.
Print Assumptions C42_contains_ball_tolerance.

(** A point contains a ball only when the ball is that single point. *)
Theorem C42_point_contains_ball : forall n (p : point R) (b : ball R), (0 < n)%nat -> 0 <= radius b ->
  dims n p -> dims n (center b) -> valid p = true -> valid (center b) = true ->
  (c_point_ball (H := Rnum 0) n p b false = true <-> incl (in_ball n b) (pteq n (co p))) /\
  c_point_ball (H := Rnum 0) n p b true = false.
Proof.
  intros n p b Hn Hr Dp Dc Vp Vc. split; [|reflexivity]. unfold c_point_ball. cbn [negb andb]. rewrite andb_true_iff. unfold same.
  rewrite (vec_equal_exact 0 n) by auto. cbn [neqb n0 nofZ Rnum]. split.
  - intros [Z [-> _]] x X. destruct (Req_bool_spec (radius b) 0) as [Z'|]; [|discriminate]. unfold in_ball in X. rewrite Z' in X.
    apply dist_0. pose proof (dist_nonneg n (co (center b)) x). lra.
  - intros I. assert (C : pteq n (co p) (co (center b))) by (apply I; unfold in_ball; rewrite dist_refl; auto). split; [|split; auto].
    + destruct (extreme_point n (co (center b)) (radius b) 0 Hn Hr) as [X _].
      pose proof (I _ (Req_le _ _ X) 0%nat Hn) as E. cbn beta in E. rewrite delta_same, C in E by auto. apply Req_bool_true. lra.
    + apply (coords_eq n); auto. congruence.
Qed.
Print Assumptions C42_point_contains_ball.

(** * Ball and box *)
(** The closed test is exact for every epsilon; the proper test means that the open ball
    reaches the interior of the box. *)
Theorem C42_box : forall (eps : Epsilon) n (b : ball R) (a : axisbox R), 0 <= radius b ->
  (box_ordered n a -> (i_ball_box n b a false = true <-> meet (in_ball n b) (in_box n a))) /\
  (box_thick n a -> (i_ball_box n b a true = true <-> meet (in_ball_open n b) (in_box_open n a))).
Proof.
  intros eps n b a Hr. split.
  - intros O. now apply ball_box.
  - intros Th. rewrite ball_box_proper; auto using thick_ordered. split.
    + now apply open_reaches.
    + intros (x & X & Y). exists x. split; auto. intros i Hi. specialize (Y i Hi). lra.
Qed.
Print Assumptions C42_box.
Example C42_box_example : box_thick 2 sq1 /\ meet (in_ball_open 2 ball1) (in_box_open 2 sq1) /\ ~ meet (in_ball 2 ball2) (in_box 2 sq1).
Proof.
  split; [apply sq_thick|]. split.
  - exists (co (mk2 (1/2) (1/2))). split; [|two]. rewrite in_ball_open_sqr by (cbn; lra). unfold dist2, norm2, inner, co. cbn. lra.
  - intros (x & X & Y). rewrite in_ball_sqr in X by (cbn; lra). unfold dist2, norm2, inner, co in X. cbn in X.
    pose proof (Y 0%nat (Nat.lt_0_succ 1)) as Y0. pose proof (Y 1%nat (Nat.lt_succ_diag_r 1)) as Y1. unfold co in Y0, Y1. cbn in Y0, Y1. nra.
Qed.

Theorem C42_ball_contains_box_exact : forall n (b : ball R) (a : axisbox R), 0 <= radius b -> box_ordered n a ->
  (c_ball_box (H := Rnum 0) n b a false = true <-> incl (in_box n a) (in_ball n b)) /\
  (c_ball_box (H := Rnum 0) n b a true = true <-> incl (in_box n a) (in_ball_open n b)).
Proof.
  intros n b a Hr O. rewrite (ball_contains_box 0), (ball_contains_box_proper 0) by auto. unfold epsilon. rewrite Rplus_0_r, Rmult_1_r. unfold incl.
  split; split; intros E x X; specialize (E x X); [apply in_ball_sqr|apply in_ball_sqr in E|apply in_ball_open_sqr|apply in_ball_open_sqr in E]; auto.
Qed.
Print Assumptions C42_ball_contains_box_exact.
Example C42_ball_contains_box_example : incl (in_box 2 sq1) (in_ball_open 2 ball1).
Proof.
  intros x X. rewrite in_ball_open_sqr by (cbn; lra). pose proof (X 0%nat (Nat.lt_0_succ 1)) as Y0. pose proof (X 1%nat (Nat.lt_succ_diag_r 1)) as Y1.
  unfold dist2, norm2, inner, co in *. cbn in *. nra.
Qed.

(** With the library epsilon: exactly the boxes inside the ball whose squared radius is
    larger by the factor 1 + eps, even in the proper test. *)
Theorem C42_ball_contains_box_tolerance : forall (eps : Epsilon) n (b : ball R) (a : axisbox R), box_ordered n a ->
  (c_ball_box n b a false = true <-> forall x, in_box n a x -> dist2 n (co (center b)) x <= radius b * radius b * (1 + eps)) /\
  (c_ball_box n b a true = true <-> forall x, in_box n a x -> dist2 n (co (center b)) x < radius b * radius b * (1 + eps)).
Proof. intros. split; [now apply ball_contains_box|now apply ball_contains_box_proper]. Qed.
Print Assumptions C42_ball_contains_box_tolerance.
Theorem C42_ball_contains_box_proper_refuted : forall (eps : Epsilon), 0 < (eps : R) < 1 ->
  exists (b : ball R) (a : axisbox R), 0 < radius b /\ box_thick 2 a /\ c_ball_box 2 b a true = true /\ ~ incl (in_box 2 a) (in_ball 2 b).
Proof.
  intros eps He. exists (mkBall (mkC [0; 0] true) 5), (mkB (mkC [3; 3] true) (mkC [3 + eps / 10; 4] true)).
  split; [cbn; lra|]. split; [two|]. split.
  - apply ball_contains_box_proper; [two|]. intros x X. pose proof (X 0%nat (Nat.lt_0_succ 1)) as Y0. pose proof (X 1%nat (Nat.lt_succ_diag_r 1)) as Y1.
    unfold dist2, norm2, inner, co in *. cbn in *. nra.
  - intros I. specialize (I (co (mk2 (3 + eps / 10) 4))). rewrite in_ball_sqr in I by (cbn; lra). unfold dist2, norm2, inner, co in I. cbn in I.
    enough (0 < eps / 10 * (eps/10)) by (cut (in_box 2 (mkB (mkC [3; 3] true) (mkC [3 + eps / 10; 4] true)) (co (mk2 (3 + eps / 10) 4))); [intros Z; specialize (I Z); nra|two]). nra.
Qed.
Print Assumptions C42_ball_contains_box_proper_refuted.

(** A box contains a ball: closed test within epsilon of the box, proper test in its interior. *)
Theorem C42_box_contains_ball : forall (eps : Epsilon) n (a : axisbox R) (b : ball R), 0 <= radius b ->
  (c_box_ball n a b false = true <-> incl (in_ball n b) (near_box n eps a)) /\
  (c_box_ball n a b true = true <-> incl (in_ball n b) (in_box_open n a)).
Proof. intros. split; [now apply box_contains_ball|now apply box_contains_ball_proper]. Qed.
Print Assumptions C42_box_contains_ball.
Theorem C42_box_contains_ball_exact : forall n (a : axisbox R) (b : ball R), 0 <= radius b ->
  (c_box_ball (H := Rnum 0) n a b false = true <-> incl (in_ball n b) (in_box n a)).
Proof.
  intros. rewrite (box_contains_ball 0) by auto. split; intros E x X i Hi; specialize (E x X i Hi); unfold epsilon in *; lra.
Qed.
Print Assumptions C42_box_contains_ball_exact.

(** The same on doubles: the point (1,0) is on the boundary of the unit ball and passes the
    proper test. *)
Lemma val_one : val (b64_ofZ 1) = 1.
Proof. unfold val. set (e := b64_ofZ 1). vm_compute in e. unfold e, SF2R, Defs.F2R. cbn [Defs.Fnum Defs.Fexp SpecFloat.cond_Zopp]. unfold bpow. simpl. lra. Qed.
Lemma val_zero : val (b64_ofZ 0) = 0. Proof. reflexivity. Qed.
Theorem C42_point_proper_double_refuted : forall (m : libm),
  let z := b64_ofZ 0 in let o := b64_ofZ 1 in
  i_ball_point (H := B64 m) 2 (mkBall (mkC [z; z] true) o) (mkC [o; z] true) true = true /\
  ~ in_ball_open 2 (mkBall (mkC [val z; val z] true) (val o)) (co (mkC [val o; val z] true)).
Proof.
  intros m z o. split; [vm_compute; reflexivity|]. unfold z, o. rewrite val_one, val_zero. rewrite in_ball_open_sqr by (cbn; lra).
  unfold dist2, norm2, inner, co. cbn. lra.
Qed.
Print Assumptions C42_point_proper_double_refuted.
