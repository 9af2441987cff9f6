(** C42 for balls and points of doubles (vocabulary in RoundSpec: [doubles], [rco], [real], [lib_eps]). *)
From Coq Require Import ZArith NArith Reals Bool SpecFloat Lia Lra List.
From Flocq Require Import Core IEEE754.BinarySingleNaN.
From Verif Require Import Base Scalar RLib B64Lib B64Ops ConstSpec RoundLib RSpec RoundSpec ConstModel VecModel ShapeModel IntersectModel VecSpec ShapeSpec VecProofs VecProofs4 ShapeProofs BallProofs RoundProofs RoundProofs2 RoundProofs3 BallDouble PropBall PropBoxDouble.
Import ListNotations.
Open Scope R_scope.

(** The factor (1 + epsilon) on the squared radius is more than all the rounding: up to dimension 50 no point of the ball,
    not even on its surface, is ever refused, whatever [proper]. *)
Theorem C42_point_double : forall (m : libm) n (b : ball spec_float) (p : point spec_float) proper, (n <= 50)%nat ->
  doubles n (center b) -> doubles n p -> finite_double (radius b) -> bpow radix2 (-495) <= real (radius b) <= bpow radix2 500 ->
  dist n (rco (center b)) (rco p) <= real (radius b) -> i_ball_point (H := B64 m) n b p proper = true.
Proof.
  intros m n b p proper L Dc Dp Fr [R1 R2] X. apply ball_point_complete; auto.
  unfold dist in X. pose proof (dist2_nonneg n (rco (center b)) (rco p)) as D0. pose proof (bpow_gt_0 radix2 (-495)).
  rewrite <- (sqrt_sqrt _ D0). apply Rmult_le_compat; auto using sqrt_pos.
Qed.
Print Assumptions C42_point_double.
(** Conversely an accepted point is within twice the tolerance of the ball, or so near the centre compared with the
    coordinates that the squared distance was taken to be zero. *)
Theorem C42_point_double_sound : forall (m : libm) n (b : ball spec_float) (p : point spec_float) proper, (n <= 50)%nat ->
  doubles n (center b) -> doubles n p -> finite_double (radius b) -> bpow radix2 (-495) <= real (radius b) <= bpow radix2 500 ->
  dist2 n (rco (center b)) (rco p) <= bpow radix2 1022 -> i_ball_point (H := B64 m) n b p proper = true ->
  dist2 n (rco (center b)) (rco p) <= real (radius b) * real (radius b) * (1 + 2 * lib_eps) \/
  forall A B, (forall i, (i < n)%nat -> Rabs (rco (center b) i) <= A) -> (forall i, (i < n)%nat -> Rabs (rco p i) <= B) ->
    dist2 n (rco (center b)) (rco p) <= 3 * lib_eps * Rmax 1 (Rmin A B).
Proof. intros m n b p proper L Dc Dp Fr [R1 R2] X I. exact (ball_point_sound m n b p L Dc Dp Fr R1 R2 proper X I). Qed.
Print Assumptions C42_point_double_sound.
Lemma D2_doubles x y : fl (b64_ofZ x) -> fl (b64_ofZ y) -> doubles 2 (D2 x y).
Proof. intros X Y. split; [reflexivity|]. constructor; [now apply fl_iff|]. constructor; [now apply fl_iff|constructor]. Qed.
Ltac doubles_now := apply D2_doubles; (split; [vm_compute; reflexivity|reflexivity]).
Example C42_point_double_example : let b := mkBall (D2 1 2) (b64_ofZ 3) in
  doubles 2 (center b) /\ doubles 2 (D2 3 3) /\ finite_double (radius b) /\ bpow radix2 (-495) <= real (radius b) <= bpow radix2 500 /\
  dist 2 (rco (center b)) (rco (D2 3 3)) <= real (radius b).
Proof.
  cbv zeta. cbn [center radius]. split; [doubles_now|]. split; [doubles_now|]. split; [apply fl_iff; split; [vm_compute; reflexivity|reflexivity]|].
  change (real (b64_ofZ 3)) with (val (b64_ofZ 3)). rewrite v3. split.
  - split; [apply Rle_trans with (bpow radix2 1); [apply bpow_le; lia|change (bpow radix2 1) with 2; lra]|].
    apply Rle_trans with (bpow radix2 2); [change (bpow radix2 2) with 4; lra|apply bpow_le; lia].
  - unfold dist. rewrite <- (sqrt_square 3) by lra. apply sqrt_le_1_alt.
    unfold dist2, norm2, inner, rco, D2. cbn [Rsum el nth]. change real with val. rewrite v1, v2, v3. lra.
Qed.

(** The two tests without that factor do refuse what touches: balls whose centres are exactly the sum of the radii apart,
    and a ball that reaches exactly to the corner of a box. *)
Definition k0 : Z := 89478487.
Lemma w3 : val (b64_ofZ (3 * k0)) = 268435461. Proof. small_val (3 * k0)%Z. Qed.
Lemma w4 : val (b64_ofZ (4 * k0)) = 357913948. Proof. small_val (4 * k0)%Z. Qed.
Lemma w5 : val (b64_ofZ (5 * k0)) = 447392435. Proof. small_val (5 * k0)%Z. Qed.
Lemma w2 : val (b64_ofZ (2 * k0)) = 178956974. Proof. small_val (2 * k0)%Z. Qed.
Theorem C42_balls_double_refuted : forall m : libm,
  let a := mkBall (D2 0 0) (b64_ofZ (2 * k0)) in let b := mkBall (D2 (3 * k0) (4 * k0)) (b64_ofZ (3 * k0)) in
  meet (in_ball 2 (mkBall (dval (center a)) (val (radius a)))) (in_ball 2 (mkBall (dval (center b)) (val (radius b)))) /\
  i_ball_ball (H := B64 m) 2 a b false = false.
Proof.
  intros m a b. split; [|vm_compute; reflexivity].
  apply (proj1 (C42_balls_exact 2 (mkBall (dval (center a)) (val (radius a))) (mkBall (dval (center b)) (val (radius b))) ltac:(cbn [radius a]; rewrite w2; lra) ltac:(cbn [radius b]; rewrite w3; lra))).
  unfold i_ball_ball. rewrite (less_eq_false 0), (sqd0 2). cbn [radius center a b]. unfold dist2, norm2, inner, co, dval, D2. cbn [Rsum el map nth nmul nadd Rnum].
  rewrite v0, w2, w3, w4. lra.
Qed.
Print Assumptions C42_balls_double_refuted.
Theorem C42_box_double_refuted : forall m : libm,
  let b := mkBall (D2 0 0) (b64_ofZ (5 * k0)) in let a := mkB (D2 (3 * k0) (4 * k0)) (D2 (5 * k0) (5 * k0)) in
  meet (in_ball 2 (mkBall (dval (center b)) (val (radius b)))) (in_box 2 (dbox a)) /\ i_ball_box (H := B64 m) 2 b a false = false.
Proof.
  intros m b a. split; [|vm_compute; reflexivity].
  exists (co (dval (low a))). split.
  - apply in_ball_sqr; cbn [radius center b]; rewrite w5; [lra|]. unfold dist2, norm2, inner, co, dval, D2. cbn [Rsum el map nth low a]. unfold D2. cbn [el map nth]. rewrite v0, w3, w4. lra.
  - intros [|[|i]] Hi; [| |lia]; unfold a, dbox, co, dval, D2; cbn [low high el map nth]; rewrite ?w3, ?w4, ?w5; lra.
Qed.
Print Assumptions C42_box_double_refuted.
