(** C44 for doubles: a segment against a ball. *)
From Coq Require Import ZArith NArith Reals Bool SpecFloat Lia Lra List Psatz.
From Flocq Require Import Core IEEE754.BinarySingleNaN.
From Verif Require Import Base Scalar OrdLib RLib B64Lib B64Ops ConstSpec RoundLib RoundProofs RSpec ConstModel VecModel VecSpec VecProofs ShapeProofs3 BallProofs RoundProofs2 BallDouble SegProofs3 PropBoxDouble PropBallDouble PropSegDouble SegBallDouble.
From Verif Require Import RoundSpec ShapeModel IntersectModel ShapeSpec.
Import ListNotations.
Open Scope R_scope.

(** Coordinates up to B: a segment that comes nearer to the centre than the radius, by a margin, is accepted; an accepted
    one comes at least almost as near.  The margins are multiples of the tolerance. *)
Theorem C44_ball_double : forall (m : libm) n (s : segment spec_float) (b : ball spec_float) proper (B : R), (0 < n <= 50)%nat -> 1 <= B <= bpow radix2 400 ->
  doubles n (end1 s) -> doubles n (end2 s) -> doubles n (center b) ->
  (forall i, (i < n)%nat -> Rabs (rco (end1 s) i) <= B /\ Rabs (rco (end2 s) i) <= B /\ Rabs (rco (center b) i) <= B) ->
  finite_double (radius b) -> bpow radix2 (-495) <= real (radius b) <= bpow radix2 500 ->
  (forall x, in_segment n (dseg s) x -> dist2 n (rco (center b)) x <= real (radius b) ^ 2 * (1 - lib_eps) - 50 * lib_eps * (INR n * B ^ 2) -> i_seg_ball (H := B64 m) n s b proper = true) /\
  (i_seg_ball (H := B64 m) n s b proper = true -> exists x, in_segment n (dseg s) x /\ dist2 n (rco (center b)) x <= real (radius b) ^ 2 * (1 + 2 * lib_eps) + 20 * lib_eps * (INR n * B ^ 2)).
Proof.
  intros m n s b proper B Hn HB D1 D2 Dc Bd Fr [R1 R2].
  destruct (tested m n B Hn HB s b D1 D2 Dc (fun i Hi => proj1 (Bd i Hi)) (fun i Hi => proj1 (proj2 (Bd i Hi))) (fun i Hi => proj2 (proj2 (Bd i Hi))) Fr R1 R2 proper) as (q & Q & Near & Acc & Snd).
  assert (E : forall t i, (1 - t) * rco (end1 s) i + t * rco (end2 s) i = seg_at (dseg s) t i) by (intros t i; unfold seg_at, dseg; cbn [end1 end2]; rewrite !rco_dval; reflexivity).
  assert (E0 : 0 < lib_eps * (INR n * (B * B))). { apply Rmult_lt_0_compat; [unfold lib_eps; pose proof (bpow_gt_0 radix2 (-52)); lra|]. apply Rmult_lt_0_compat; [apply lt_0_INR; lia|apply Rmult_lt_0_compat; lra]. }
  change (val (radius b)) with (real (radius b)) in *. split.
  - intros x (t & Ht & Ex) H. apply Acc. specialize (Near t Ht). rewrite (dist2_ext' n _ x _ Ex) in H. rewrite (dist2_ext' n _ (seg_at (dseg s) t) (fun i => (1 - t) * rco (end1 s) i + t * rco (end2 s) i)) in H by (intros i Hi; rewrite E; reflexivity). simpl pow in H. rewrite !Rmult_1_r in H. lra.
  - intros H. specialize (Snd H). exists (fun i => (1 - q) * rco (end1 s) i + q * rco (end2 s) i). split; [exists q; split; [exact Q|intros i Hi; apply E]|]. simpl pow. rewrite !Rmult_1_r. lra.
Qed.
Print Assumptions C44_ball_double.
(** A segment through a ball, with room to spare; one far off. *)
Example C44_ball_double_example : let s := mkS (D2 0 0) (D2 4 3) in let b := mkBall (D2 2 1) (b64_ofZ 1) in
  doubles 2 (end1 s) /\ doubles 2 (end2 s) /\ doubles 2 (center b) /\ finite_double (radius b) /\ bpow radix2 (-495) <= real (radius b) <= bpow radix2 500 /\
  (forall i, (i < 2)%nat -> Rabs (rco (end1 s) i) <= 4 /\ Rabs (rco (end2 s) i) <= 4 /\ Rabs (rco (center b) i) <= 4) /\
  exists x, in_segment 2 (dseg s) x /\ dist2 2 (rco (center b)) x <= real (radius b) ^ 2 * (1 - lib_eps) - 50 * lib_eps * (INR 2 * 4 ^ 2).
Proof.
  cbv zeta. cbn [end1 end2 center radius]. split; [doubles_now|]. split; [doubles_now|]. split; [doubles_now|]. split; [apply fl_iff; split; [vm_compute; reflexivity|reflexivity]|].
  change (real (b64_ofZ 1)) with (val (b64_ofZ 1)). rewrite v1. split; [split; [change 1 with (bpow radix2 0); apply bpow_le; lia|change 1 with (bpow radix2 0); apply bpow_le; lia]|].
  assert (V4 : val (b64_ofZ 4) = 4) by (unfold val; set (e := b64_ofZ 4); vm_compute in e; unfold e, SF2R, Defs.F2R; cbn [Defs.Fnum Defs.Fexp SpecFloat.cond_Zopp]; unfold bpow; simpl; lra).
  assert (C : forall x y, rco (D2 x y) 0 = val (b64_ofZ x) /\ rco (D2 x y) 1 = val (b64_ofZ y)) by (intros; split; reflexivity).
  split.
  - intros [|[|i]] Hi; [| |lia]; rewrite ?(proj1 (C _ _)), ?(proj2 (C _ _)), ?V4, ?v0, ?v1, ?v2, ?v3; repeat split; apply Rabs_le; lra.
  - exists (fun i => match i with 0%nat => 2 | _ => 3 / 2 end). split.
    + exists (1 / 2). split; [lra|]. intros [|[|i]] Hi; [| |lia]; unfold seg_at, dseg; cbn [end1 end2]; rewrite <- !rco_dval, ?(proj1 (C _ _)), ?(proj2 (C _ _)), ?V4, ?v0, ?v3; lra.
    + unfold dist2, norm2, inner. cbn [Rsum]. rewrite (proj1 (C _ _)), (proj2 (C _ _)), v1, v2. cbn [INR pow]. assert (lib_eps <= / 10 ^ 10). { rewrite eps60. pose proof u_tiny. lra. } assert (0 < lib_eps) by (rewrite eps60; pose proof u64_pos; lra). lra.
Qed.
Ltac val_now := unfold val; match goal with |- context [b64_ofZ ?z] => let e := eval vm_compute in (b64_ofZ z) in change (b64_ofZ z) with e end; unfold SF2R, Defs.F2R; cbn [Defs.Fnum Defs.Fexp SpecFloat.cond_Zopp]; unfold bpow; simpl; lra.
(** Touching is not always seen: the segment from (0,0) to (42,56) meets the ball of radius 5 about (23,39) in (27,36). *)
Theorem C44_ball_double_refuted : exists (s : segment spec_float) (b : ball spec_float), doubles 2 (end1 s) /\ doubles 2 (end2 s) /\ doubles 2 (center b) /\ finite_double (radius b) /\
  (exists x, in_segment 2 (dseg s) x /\ dist2 2 (rco (center b)) x <= real (radius b) ^ 2) /\ forall m : libm, i_seg_ball (H := B64 m) 2 s b false = false.
Proof.
  exists (mkS (D2 0 0) (D2 42 56)), (mkBall (D2 23 39) (b64_ofZ 5)). cbn [end1 end2 center radius]. split; [doubles_now|]. split; [doubles_now|]. split; [doubles_now|]. split; [apply fl_iff; split; [vm_compute; reflexivity|reflexivity]|].
  split; [|intros m; vm_compute; reflexivity].
  assert (C : forall x y, rco (D2 x y) 0 = val (b64_ofZ x) /\ rco (D2 x y) 1 = val (b64_ofZ y)) by (intros; split; reflexivity).
  assert (V42 : val (b64_ofZ 42) = 42) by val_now. assert (V56 : val (b64_ofZ 56) = 56) by val_now. assert (V23 : val (b64_ofZ 23) = 23) by val_now. assert (V39 : val (b64_ofZ 39) = 39) by val_now. assert (V5 : val (b64_ofZ 5) = 5) by val_now.
  exists (fun i => match i with 0%nat => 27 | _ => 36 end). split.
  - exists (9 / 14). split; [lra|]. intros [|[|i]] Hi; [| |lia]; unfold seg_at, dseg; cbn [end1 end2]; rewrite <- !rco_dval, ?(proj1 (C _ _)), ?(proj2 (C _ _)), ?V42, ?V56, ?v0; lra.
  - unfold dist2, norm2, inner. cbn [Rsum]. rewrite (proj1 (C _ _)), (proj2 (C _ _)), V23, V39. change (real (b64_ofZ 5)) with (val (b64_ofZ 5)). rewrite V5. lra.
Qed.
Print Assumptions C44_ball_double_refuted.
