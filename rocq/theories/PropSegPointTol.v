(** C44: a segment against a point, with any comparison epsilon, and the short segments where it goes wrong. *)
From Coq Require Import ZArith NArith Reals Bool SpecFloat Lia Lra List Psatz.
From Flocq Require Import Core IEEE754.BinarySingleNaN.
From Verif Require Import Base Scalar OrdLib RLib B64Lib B64Ops ConstSpec RoundLib RoundProofs RSpec ConstModel VecModel VecSpec VecProofs ShapeProofs3 BallProofs RoundProofs2 BallDouble SegProofs3 PropBoxDouble PropBallDouble PropSegDouble SegPointTol.
From Verif Require Import RoundSpec ShapeModel IntersectModel ShapeSpec.
Import ListNotations.
Open Scope R_scope.

(** Every point of the segment is accepted.  An accepted point is near the segment, measured against its distance to the nearer
    end, unless the segment is short: both ends so near that the product of the squared distances is below epsilon. *)
Theorem C44_point_tolerance : forall (eps : R) n (s : segment R) (p : point R), (0 < n)%nat -> 0 < eps <= 1 / 16 ->
  (in_segment n s (co p) -> i_seg_point (H := Rnum eps) n s p false = true) /\
  (i_seg_point (H := Rnum eps) n s p false = true ->
   (exists x, in_segment n s x /\ dist2 n (co p) x <= 2 * eps * Rmin (dist2 n (co (end1 s)) (co p)) (dist2 n (co (end2 s)) (co p))) \/
   dist2 n (co (end1 s)) (co p) * dist2 n (co (end2 s)) (co p) <= eps).
Proof. intros eps n s p Hn He. split; [apply complete; auto|apply sound; auto]. Qed.
Print Assumptions C44_point_tolerance.
(** With [proper] an accepted point is near the segment in every case; a point strictly inside is accepted when it is farther than two
    epsilons from one of the ends. *)
Theorem C44_point_tolerance_proper : forall (eps : R) n (s : segment R) (p : point R), (0 < n)%nat -> 0 < eps <= 1 / 16 ->
  (in_segment_open n s (co p) -> 2 * eps < Rmax (dist n (co (end1 s)) (co p)) (dist n (co (end2 s)) (co p)) -> i_seg_point (H := Rnum eps) n s p true = true) /\
  (i_seg_point (H := Rnum eps) n s p true = true ->
   exists x, in_segment n s x /\ dist2 n (co p) x <= 2 * eps * Rmin (dist2 n (co (end1 s)) (co p)) (dist2 n (co (end2 s)) (co p))).
Proof.
  intros eps n s p Hn He. split; [|apply sound_proper; auto]. intros Ho Far. apply complete_proper; auto.
  unfold dist in Far. set (x := dist2 n (co (end1 s)) (co p)) in *. set (y := dist2 n (co (end2 s)) (co p)) in *.
  change (4 * eps * eps < Rmax x y). assert (K : forall z, 0 <= z -> 2 * eps < sqrt z -> 4 * eps * eps < z).
  { intros z Hz L. rewrite <- (sqrt_sqrt z Hz). assert (0 <= sqrt z) by apply sqrt_pos. nra. }
  assert (0 <= x) by apply norm2_nonneg. assert (0 <= y) by apply norm2_nonneg.
  unfold Rmax in Far at 1. destruct (Rle_dec (sqrt x) (sqrt y)).
  - eapply Rlt_le_trans; [apply K; [|exact Far]; auto|apply Rmax_r].
  - eapply Rlt_le_trans; [apply K; [|exact Far]; auto|apply Rmax_l].
Qed.
Print Assumptions C44_point_tolerance_proper.
Example C44_point_tolerance_example : let s := mkS (mkC [0; 0] true) (mkC [4; 4] true) in let p := mkC [1; 1] true in
  in_segment_open 2 s (co p) /\ 2 * (1 / 100) < Rmax (dist 2 (co (end1 s)) (co p)) (dist 2 (co (end2 s)) (co p)) /\
  1 / 100 < dist2 2 (co (end1 s)) (co p) * dist2 2 (co (end2 s)) (co p).
Proof.
  cbn zeta. split; [exists (1 / 4); split; [lra|]; intros [|[|i]] Hi; [unfold seg_at, co; cbn; lra|unfold seg_at, co; cbn; lra|lia]|].
  assert (A : dist2 2 (co (end1 (mkS (mkC [0; 0] true) (mkC [4; 4] true)))) (co (mkC [1; 1] true)) = 2) by (unfold dist2, norm2, inner, co; cbn; lra).
  assert (B : dist2 2 (co (end2 (mkS (mkC [0; 0] true) (mkC [4; 4] true)))) (co (mkC [1; 1] true)) = 18) by (unfold dist2, norm2, inner, co; cbn; lra).
  split; [|rewrite A, B; lra]. eapply Rlt_le_trans; [|apply Rmax_l]. unfold dist. rewrite A. apply Rlt_le_trans with (sqrt 1); [rewrite sqrt_1; lra|apply sqrt_le_1_alt; lra].
Qed.

(** The other case happens: points that stand off a short segment by half its length are accepted.  Segment (-2^-13,0)-(2^-13,0), point (0,2^-13). *)
Definition pow2 (k : Z) : spec_float := S754_finite false 4503599627370496 (k - 52).
Definition mpow2 (k : Z) : spec_float := S754_finite true 4503599627370496 (k - 52).
Theorem C44_point_double_refuted : exists (s : segment spec_float) (p : point spec_float) (l : R), doubles 2 (end1 s) /\ doubles 2 (end2 s) /\ doubles 2 p /\ 0 < l /\
  dist2 2 (rco (end1 s)) (rco (end2 s)) = l * l /\
  (forall x, in_segment 2 (dseg s) x -> l / 2 * (l / 2) <= dist2 2 (rco p) x) /\ forall m : libm, i_seg_point (H := B64 m) 2 s p false = true.
Proof.
  exists (mkS (mkC [mpow2 (-13); b64_ofZ 0] true) (mkC [pow2 (-13); b64_ofZ 0] true)), (mkC [b64_ofZ 0; pow2 (-13)] true), (bpow radix2 (-12)). cbn [end1 end2].
  assert (VP : val (pow2 (-13)) = / 8192) by (unfold val, pow2, SF2R, Defs.F2R; cbn [Defs.Fnum Defs.Fexp SpecFloat.cond_Zopp]; unfold bpow; simpl; lra).
  assert (VM : val (mpow2 (-13)) = - / 8192) by (unfold val, mpow2, SF2R, Defs.F2R; cbn [Defs.Fnum Defs.Fexp SpecFloat.cond_Zopp]; unfold bpow; simpl; lra).
  assert (B : bpow radix2 (-12) = / 4096) by (unfold bpow; simpl; lra).
  assert (F1 : finite_double (mpow2 (-13))) by (apply fl_iff; split; [vm_compute; reflexivity|reflexivity]). assert (F2 : finite_double (pow2 (-13))) by (apply fl_iff; split; [vm_compute; reflexivity|reflexivity]).
  assert (F0 : finite_double (b64_ofZ 0)) by (apply fl_iff; split; [vm_compute; reflexivity|reflexivity]).
  do 3 (split; [split; [reflexivity|repeat constructor; assumption]|]). rewrite B. split; [lra|]. split; [|split; [|intros m; vm_compute; reflexivity]].
  - unfold dist2, norm2, inner. cbn [Rsum]. unfold rco, real. cbn [el nth]. fold (val (pow2 (-13))). change (SF2R radix2 (mpow2 (-13))) with (val (mpow2 (-13))). rewrite ?VP, ?VM. fold (val (b64_ofZ 0)). rewrite ?v0. lra.
  - intros x (t & Ht & Ex). pose proof (Ex 1%nat ltac:(lia)) as E1. unfold seg_at, dseg in E1. cbn [end1 end2] in E1.
    unfold dist2, norm2, inner. cbn [Rsum]. 
    assert (X1 : x 1%nat = 0). { rewrite E1. unfold co, dval. cbn [el map nth]. rewrite v0. ring. }
    assert (P1 : rco (mkC [b64_ofZ 0; pow2 (-13)] true) 1 = / 8192) by exact VP. rewrite X1, P1. set (z := rco _ 0 - x 0%nat). nra.
Qed.
Print Assumptions C44_point_double_refuted.
