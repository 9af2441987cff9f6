(** C44 for doubles: a segment against a point. *)
From Coq Require Import ZArith NArith Reals Bool SpecFloat Lia Lra List Psatz.
From Flocq Require Import Core IEEE754.BinarySingleNaN.
From Verif Require Import Base Scalar OrdLib RLib B64Lib B64Ops ConstSpec RoundLib RoundProofs RSpec ConstModel VecModel VecSpec VecProofs ShapeProofs3 BallProofs RoundProofs2 BallDouble SegProofs3 PropBoxDouble PropBallDouble PropSegDouble PropSegBallDouble SegPointDouble.
From Verif Require Import RoundSpec ShapeModel IntersectModel ShapeSpec.
Import ListNotations.
Open Scope R_scope.

(** Two points that agree, or whose distance is between 2^-200 and 2^200. *)
Definition apart_or_same (n : nat) (p q : point spec_float) : Prop :=
  dist2 n (rco p) (rco q) = 0 \/ bpow radix2 (-400) <= dist2 n (rco p) (rco q) <= bpow radix2 400.
(** A point that lies exactly on the segment is always accepted, in spite of the rounding; with [proper] it is when it is no end and
    three epsilons away from one of the ends.  An accepted point is near the segment or the segment is short. *)
Theorem C44_point_double : forall (m : libm) n (s : segment spec_float) (p : point spec_float), (0 < n <= 6)%nat ->
  doubles n (end1 s) -> doubles n (end2 s) -> doubles n p -> apart_or_same n (end1 s) p -> apart_or_same n (end2 s) p ->
  (in_segment n (dseg s) (rco p) -> i_seg_point (H := B64 m) n s p false = true) /\
  (in_segment n (dseg s) (rco p) -> 0 < dist n (rco (end1 s)) (rco p) -> 0 < dist n (rco (end2 s)) (rco p) ->
   3 * lib_eps <= Rmax (dist n (rco (end1 s)) (rco p)) (dist n (rco (end2 s)) (rco p)) -> i_seg_point (H := B64 m) n s p true = true) /\
  (forall proper, i_seg_point (H := B64 m) n s p proper = true ->
   (exists x, in_segment n (dseg s) x /\ dist2 n (rco p) x <= 3 * lib_eps * Rmin (dist2 n (rco (end1 s)) (rco p)) (dist2 n (rco (end2 s)) (rco p))) \/
   dist2 n (rco (end1 s)) (rco p) * dist2 n (rco (end2 s)) (rco p) <= 2 * lib_eps).
Proof.
  intros m n s p Hn D1 D2 Dp A1 A2. rewrite <- epsR_lib. unfold epsR. pose proof (bpow_gt_0 radix2 400) as B4.
  assert (U1 : dist2 n (rco (end1 s)) (rco p) <= bpow radix2 400) by (destruct A1; lra). assert (U2 : dist2 n (rco (end2 s)) (rco p) <= bpow radix2 400) by (destruct A2; lra).
  split; [|split].
  - intros Hs. destruct A1 as [Z1|[L1 _]]; [apply zero_end; auto|]. destruct A2 as [Z2|[L2 _]]; [apply zero_end; auto|]. apply inside; auto. discriminate.
  - intros Hs P1 P2 Far. destruct A1 as [Z1|[L1 _]]; [unfold dist in P1; rewrite Z1, sqrt_0 in P1; lra|]. destruct A2 as [Z2|[L2 _]]; [unfold dist in P2; rewrite Z2, sqrt_0 in P2; lra|]. apply inside; auto.
  - intros proper Q. destruct A1 as [Z1|[L1 _]]; [right; rewrite Z1, Rmult_0_l, eps_u; pose proof u64_pos; lra|]. destruct A2 as [Z2|[L2 _]]; [right; rewrite Z2, Rmult_0_r, eps_u; pose proof u64_pos; lra|].
    eapply accepted; eauto.
Qed.
Print Assumptions C44_point_double.
Example C44_point_double_example : let s := mkS (PropBoxDouble.D2 0 0) (PropBoxDouble.D2 3 3) in let p := PropBoxDouble.D2 1 1 in
  doubles 2 (end1 s) /\ doubles 2 (end2 s) /\ doubles 2 p /\ apart_or_same 2 (end1 s) p /\ apart_or_same 2 (end2 s) p /\ in_segment 2 (dseg s) (rco p) /\
  3 * lib_eps <= Rmax (dist 2 (rco (end1 s)) (rco p)) (dist 2 (rco (end2 s)) (rco p)).
Proof.
  cbn zeta. cbn [end1 end2]. assert (C : forall x y, rco (PropBoxDouble.D2 x y) 0 = val (b64_ofZ x) /\ rco (PropBoxDouble.D2 x y) 1 = val (b64_ofZ y)) by (intros; split; reflexivity).
  assert (A : dist2 2 (rco (PropBoxDouble.D2 0 0)) (rco (PropBoxDouble.D2 1 1)) = 2) by (unfold dist2, norm2, inner; cbn [Rsum]; rewrite ?(proj1 (C _ _)), ?(proj2 (C _ _)), v0, v1; lra).
  assert (B : dist2 2 (rco (PropBoxDouble.D2 3 3)) (rco (PropBoxDouble.D2 1 1)) = 8) by (unfold dist2, norm2, inner; cbn [Rsum]; rewrite ?(proj1 (C _ _)), ?(proj2 (C _ _)), v3, v1; lra).
  assert (L : bpow radix2 (-400) <= 1) by (apply (bpow_le radix2 (-400) 0); lia). assert (U : 8 <= bpow radix2 400) by (apply Rle_trans with (bpow radix2 3); [unfold bpow; simpl; lra|apply bpow_le; lia]).
  split; [doubles_now|]. split; [doubles_now|]. split; [doubles_now|]. split; [right; rewrite A; lra|]. split; [right; rewrite B; lra|]. split.
  - exists (1 / 3). split; [lra|]. intros [|[|i]] Hi; [| |lia]; unfold seg_at, dseg; cbn [end1 end2]; rewrite <- !rco_dval, ?(proj1 (C _ _)), ?(proj2 (C _ _)), ?v0, ?v1, ?v3; lra.
  - eapply Rle_trans; [|apply Rmax_l]. unfold dist. rewrite A. apply Rle_trans with (sqrt 1); [rewrite sqrt_1, <- epsR_lib; unfold epsR; rewrite eps_u; pose proof u_tiny; lra|apply sqrt_le_1_alt; lra].
Qed.
