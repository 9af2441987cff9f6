(** C43 Bounding spheres of segments and boxes in doubles. *)
From Coq Require Import ZArith NArith Reals Bool SpecFloat Lia Lra List Psatz.
From Flocq Require Import Core IEEE754.BinarySingleNaN.
From Verif Require Import Base Scalar RLib B64Lib B64Ops ConstSpec RoundLib RSpec RoundSpec ConstModel VecModel ShapeModel IntersectModel VecSpec ShapeSpec VecProofs VecProofs4 ShapeProofs ShapeProofs3 BallProofs SphereProofs
  RoundProofs RoundProofs2 RoundProofs3 RoundProofs4 RoundProofs5 BallDouble RotRound CoordRound SphereDouble PropRound PropBoxDouble PropBallDouble.
From Verif Require Import ShapeModel.
Import ListNotations.
Open Scope R_scope.

(** The segment with the real numbers that the doubles denote. *)
Definition rseg (s : segment spec_float) : segment R := mkS (dval (end1 s)) (dval (end2 s)).
Lemma co_rco p i : co (dval p) i = rco p i.
Proof. unfold co, dval, rco. cbn [el]. change 0 with (val (S754_zero false)). rewrite map_nth. reflexivity. Qed.
Lemma dist_rco n p q : dist n (co (dval p)) (co (dval q)) = dist n (rco p) (rco q).
Proof. unfold dist, dist2, norm2, inner. f_equal. apply Rsum_ext. intros. now rewrite !co_rco. Qed.

(** In up to three dimensions, the bounding sphere of a segment whose ends are on average not farther from the origin than twice its
    length contains every point of doubles on the segment, and so both ends; likewise for boxes and the length of their diagonal. *)
Theorem C43_segment_double : forall (m : libm) n (s : segment spec_float) (x : point spec_float) proper, (n <= 3)%nat -> doubles n (end1 s) -> doubles n (end2 s) -> doubles n x ->
  let L := dist n (rco (end1 s)) (rco (end2 s)) in bpow radix2 (-20) <= L <= bpow radix2 400 -> norm n (rco (end1 s)) + norm n (rco (end2 s)) <= 4 * L ->
  in_segment n (rseg s) (rco x) -> i_ball_point (H := B64 m) n (seg_bounding_sphere (H := B64 m) n s) x proper = true.
Proof.
  intros m n s x proper Hn D1 D2 Dx L HL W X. unfold seg_bounding_sphere, seg_center. apply sphere_ok; auto.
  eapply Rle_trans; [apply (seg_half n (rseg s)); [|exact X]|apply Req_le; unfold rseg; cbn [end1 end2]; now rewrite dist_rco]. intros i Hi. unfold rseg. cbn [end1 end2]. now rewrite !co_rco.
Qed.
Print Assumptions C43_segment_double.
Theorem C43_box_double : forall (m : libm) n (b : axisbox spec_float) (x : point spec_float) proper, (n <= 3)%nat -> doubles n (low b) -> doubles n (high b) -> doubles n x ->
  let L := dist n (rco (low b)) (rco (high b)) in bpow radix2 (-20) <= L <= bpow radix2 400 -> norm n (rco (low b)) + norm n (rco (high b)) <= 4 * L ->
  in_box n (dbox b) (rco x) -> i_ball_point (H := B64 m) n (box_bounding_sphere (H := B64 m) n b) x proper = true.
Proof.
  intros m n b x proper Hn D1 D2 Dx L HL W X. unfold box_bounding_sphere, box_center. apply sphere_ok; auto.
  eapply Rle_trans; [apply (box_half n (dbox b)); [|exact X]|apply Req_le; unfold dbox; cbn [low high]; now rewrite dist_rco]. intros i Hi. unfold dbox. cbn [low high]. now rewrite !co_rco.
Qed.
Print Assumptions C43_box_double.

(** Farther from the origin it is not so: the centre is rounded to one of the ends, and the sphere leaves the other one out. *)
Definition far0 : point spec_float := D2 (2 ^ 66) 0.
Definition far1 : point spec_float := D2 (2 ^ 66 + 2 ^ 14) 0.
Lemma far_doubles : doubles 2 far0 /\ doubles 2 far1.
Proof. split; doubles_now. Qed.
Theorem C43_segment_double_refuted : forall m : libm, let s := mkS far0 far1 in
  doubles 2 (end1 s) /\ doubles 2 (end2 s) /\ in_segment 2 (rseg s) (rco (end2 s)) /\ i_ball_point (H := B64 m) 2 (seg_bounding_sphere (H := B64 m) 2 s) (end2 s) false = false.
Proof.
  intros m s. split; [apply far_doubles|]. split; [apply far_doubles|]. split; [|vm_compute; reflexivity].
  exists 1. split; [lra|]. intros i Hi. unfold seg_at, rseg. cbn [end1 end2 s]. rewrite !co_rco. ring.
Qed.
Print Assumptions C43_segment_double_refuted.
Lemma far_le : rco far0 0 <= rco far1 0.
Proof.
  unfold rco, far0, far1, D2. cbn [el nth]. change real with val. apply Rle_trans with (val (b64_ofZ (2 ^ 66))); [lra|].
  assert (A : Rle_bool (val (b64_ofZ (2 ^ 66))) (val (b64_ofZ (2 ^ 66 + 2 ^ 14))) = true). { rewrite <- leb_ok by (split; [vm_compute; reflexivity|reflexivity]). vm_compute. reflexivity. }
  destruct (Rle_bool_spec (val (b64_ofZ (2 ^ 66))) (val (b64_ofZ (2 ^ 66 + 2 ^ 14)))); [assumption|discriminate].
Qed.
Theorem C43_box_double_refuted : forall m : libm, let b := mkB far0 far1 in
  doubles 2 (low b) /\ doubles 2 (high b) /\ box_ordered 2 (dbox b) /\ in_box 2 (dbox b) (rco (high b)) /\ i_ball_point (H := B64 m) 2 (box_bounding_sphere (H := B64 m) 2 b) (high b) false = false.
Proof.
  intros m b. split; [apply far_doubles|]. split; [apply far_doubles|].
  assert (O : box_ordered 2 (dbox b)).
  { intros i Hi. unfold dbox. cbn [low high b]. rewrite !co_rco. destruct i as [|[|i]]; [apply far_le|unfold rco, far0, far1, D2; cbn [el nth]; lra|lia]. }
  split; [exact O|]. split; [|vm_compute; reflexivity].
  intros i Hi. specialize (O i Hi). unfold dbox in *. cbn [low high b] in *. rewrite !co_rco in *. lra.
Qed.
Print Assumptions C43_box_double_refuted.

(** The hypotheses of the positive theorems are met by the ends (1, 2) and (4, 6), of distance 5. *)
Example C43_double_example : doubles 2 (D2 1 2) /\ doubles 2 (D2 4 6) /\
  let L := dist 2 (rco (D2 1 2)) (rco (D2 4 6)) in bpow radix2 (-20) <= L <= bpow radix2 400 /\ norm 2 (rco (D2 1 2)) + norm 2 (rco (D2 4 6)) <= 4 * L /\
  in_segment 2 (rseg (mkS (D2 1 2) (D2 4 6))) (rco (D2 4 6)) /\ in_box 2 (dbox (mkB (D2 1 2) (D2 4 6))) (rco (D2 4 6)).
Proof.
  split; [doubles_now|]. split; [doubles_now|]. assert (V : forall z, (0 < z < 8)%Z -> val (b64_ofZ z) = IZR z).
  { intros z Hz. assert (z = 1 \/ z = 2 \/ z = 3 \/ z = 4 \/ z = 5 \/ z = 6 \/ z = 7)%Z as [->|[->|[->|[->|[->|[->| ->]]]]]] by lia;
      match goal with |- val (b64_ofZ ?z) = _ => let e := eval vm_compute in (b64_ofZ z) in change (b64_ofZ z) with e end; unfold val, SF2R, Defs.F2R; cbn [Defs.Fnum Defs.Fexp SpecFloat.cond_Zopp]; unfold bpow; simpl; lra. }
  assert (A0 : rco (D2 1 2) 0 = 1) by (apply (V 1%Z); lia). assert (A1 : rco (D2 1 2) 1 = 2) by (apply (V 2%Z); lia).
  assert (B0 : rco (D2 4 6) 0 = 4) by (apply (V 4%Z); lia). assert (B1 : rco (D2 4 6) 1 = 6) by (apply (V 6%Z); lia).
  assert (E : dist 2 (rco (D2 1 2)) (rco (D2 4 6)) = 5) by (unfold dist, dist2, norm2, inner; cbn [Rsum]; rewrite A0, A1, B0, B1; replace (0 + (1 - 4) * (1 - 4) + (2 - 6) * (2 - 6)) with (5 * 5) by ring; apply sqrt_square; lra).
  cbv zeta. rewrite E. split.
  - split; [apply Rle_trans with (bpow radix2 1); [apply bpow_le; lia|change (bpow radix2 1) with 2; lra]|apply Rle_trans with (bpow radix2 3); [change (bpow radix2 3) with 8; lra|apply bpow_le; lia]].
  - split.
    + assert (N1 : norm 2 (rco (D2 1 2)) <= 5). { unfold norm. rewrite <- (sqrt_square 5) by lra. apply sqrt_le_1_alt. unfold norm2, inner. cbn [Rsum]. rewrite A0, A1. lra. }
      assert (N2 : norm 2 (rco (D2 4 6)) <= 10). { unfold norm. rewrite <- (sqrt_square 10) by lra. apply sqrt_le_1_alt. unfold norm2, inner. cbn [Rsum]. rewrite B0, B1. lra. }
      lra.
    + split; [exists 1; split; [lra|]; intros i Hi; unfold seg_at, rseg; cbn [end1 end2]; rewrite !co_rco; ring|].
      intros i Hi. unfold dbox. cbn [low high]. rewrite !co_rco. destruct i as [|[|i]]; [rewrite A0, B0; lra|rewrite A1, B1; lra|lia].
Qed.
