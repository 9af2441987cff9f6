(** C44 for doubles: a segment against an axis box, boxes and balls containing segments.  [dval], [dbox] and [dseg] give
    the point, box and segment of the real numbers the doubles stand for. *)
From Coq Require Import ZArith NArith Reals Bool SpecFloat Lia Lra List Psatz.
From Flocq Require Import Core IEEE754.BinarySingleNaN.
From Verif Require Import Base Scalar OrdLib RLib B64Lib B64Ops ConstSpec RoundLib RoundSpec RoundProofs RSpec ConstModel VecModel VecSpec VecProofs ShapeProofs3 BallProofs RoundProofs2 BallDouble BoxDouble CoordRound RbDouble OwnDouble SegDouble SegDouble2 PropBoxDouble PropBallDouble.
From Verif Require Import RoundSpec ShapeModel IntersectModel ShapeSpec.
Import ListNotations.
Open Scope R_scope.

Definition dseg (s : segment spec_float) : segment R := mkS (dval (end1 s)) (dval (end2 s)).
(** Coordinates far from overflow, and no quotient (corner - end) / (other end - end) beyond 2^1000. *)
Definition moderate (n : nat) (s : segment R) (b : axisbox R) : Prop := forall i, (i < n)%nat ->
  (Rabs (co (end1 s) i) <= bpow radix2 1000 /\ Rabs (co (end2 s) i) <= bpow radix2 1000 /\ Rabs (co (low b) i) <= bpow radix2 1000 /\ Rabs (co (high b) i) <= bpow radix2 1000) /\
  (co (end1 s) i <> co (end2 s) i ->
     Rabs (co (low b) i - co (end1 s) i) <= bpow radix2 1000 * Rabs (co (end2 s) i - co (end1 s) i) /\
     Rabs (co (high b) i - co (end1 s) i) <= bpow radix2 1000 * Rabs (co (end2 s) i - co (end1 s) i)).
(** The error along an axis: two ulps of the distance from the end to the farther side of the box. *)
Definition reach (s : segment R) (b : axisbox R) (i : nat) : R :=
  4 * half_ulp * Rmax (Rabs (co (low b) i - co (end1 s) i)) (Rabs (co (high b) i - co (end1 s) i)) + half_tiny * Rabs (co (end2 s) i - co (end1 s) i).
Lemma seg_at_line s w i : seg_at (dseg s) w i = p1 s i + w * (p2 s i - p1 s i).
Proof. unfold seg_at, dseg, p1, p2. cbn [end1 end2]. ring. Qed.

(** A segment with a point that far inside the box is found to meet it; a segment found to meet it has a point that
    near to it.  Along an axis on which the segment does not extend the first margin is zero and the second is the
    tolerance.  With [proper] the ends and the sides are left out. *)
Theorem C44_box_double : forall (m : libm) n (s : segment spec_float) (b : axisbox spec_float),
  dpoint n (end1 s) -> dpoint n (end2 s) -> dpoint n (low b) -> dpoint n (high b) -> box_ordered n (dbox b) -> moderate n (dseg s) (dbox b) ->
  ((exists x, in_segment n (dseg s) x /\ forall i, (i < n)%nat ->
      let g := if Req_EM_T (co (end1 (dseg s)) i) (co (end2 (dseg s)) i) then 0 else reach (dseg s) (dbox b) i in
      co (low (dbox b)) i + g <= x i <= co (high (dbox b)) i - g) -> i_seg_box (H := B64 m) n s b false = true) /\
  (i_seg_box (H := B64 m) n s b false = true -> exists x, in_segment n (dseg s) x /\ forall i, (i < n)%nat ->
      let g := if Req_EM_T (co (end1 (dseg s)) i) (co (end2 (dseg s)) i) then 61 * half_ulp else reach (dseg s) (dbox b) i in
      co (low (dbox b)) i - g <= x i <= co (high (dbox b)) i + g) /\
  ((exists x, in_segment_open n (dseg s) x /\ forall i, (i < n)%nat ->
      let g := if Req_EM_T (co (end1 (dseg s)) i) (co (end2 (dseg s)) i) then 0 else reach (dseg s) (dbox b) i in
      co (low (dbox b)) i + g < x i < co (high (dbox b)) i - g) -> i_seg_box (H := B64 m) n s b true = true) /\
  (i_seg_box (H := B64 m) n s b true = true -> exists x, in_segment_open n (dseg s) x /\ forall i, (i < n)%nat ->
      if Req_EM_T (co (end1 (dseg s)) i) (co (end2 (dseg s)) i) then co (low (dbox b)) i < x i < co (high (dbox b)) i
      else co (low (dbox b)) i - reach (dseg s) (dbox b) i <= x i <= co (high (dbox b)) i + reach (dseg s) (dbox b) i).
Proof.
  intros m n s b D1 D2 Dl Dh O Md. change half_ulp with u64.
  assert (Sz := fun i Hi => proj1 (Md i Hi)). assert (Qz := fun i Hi => proj2 (Md i Hi)). change (forall i, (i < n)%nat -> lo b i <= hi b i) in O.
  pose proof (core m n s b D1 D2 Dl Dh Sz Qz) as C. pose proof (core_proper m n s b D1 D2 Dl Dh Sz Qz) as P.
  change (forall i, reach (dseg s) (dbox b) i = gap s b i) with (forall i : nat, gap s b i = gap s b i).
  repeat split.
  - intros (x & (w & W & E) & X). apply C. split.
    + intros i Hi F. apply (flat_inside m n); auto. specialize (X i Hi). rewrite (E i Hi), seg_at_line in X. cbv zeta in X. destruct (Req_EM_T _ _) as [_|N] in X; [|contradiction N]. change (co (low (dbox b)) i) with (lo b i) in X. change (co (high (dbox b)) i) with (hi b i) in X. rewrite <- F in X. lra.
    + exists w. split; [exact W|]. intros i Hi N. apply inside_gap with n; auto. specialize (X i Hi). rewrite (E i Hi), seg_at_line in X. cbv zeta in X. destruct (Req_EM_T _ _) as [F|_] in X; [contradiction N|]. exact X.
  - intros T. apply C in T. destruct T as [Of (w & W & A)]. exists (seg_at (dseg s) w). split; [exists w; split; [exact W|intros i Hi; reflexivity]|]. intros i Hi. cbv zeta. rewrite seg_at_line. destruct (Req_EM_T _ _) as [F|N].
    + pose proof (flat_outside m n s b D1 Dl Dh Sz i Hi (Of i Hi F)) as K. change (p1 s i = p2 s i) in F. rewrite <- F. unfold lo, hi in K. cbn [dbox low high]. lra.
    + exact (outside_gap m n s b D1 D2 Dl Dh i w Hi N (O i Hi) (A i Hi N)).
  - intros (x & (w & W & E) & X). apply P. split.
    + intros i Hi F. apply (flat_proper m n); auto. specialize (X i Hi). rewrite (E i Hi), seg_at_line in X. cbv zeta in X. destruct (Req_EM_T _ _) as [_|N] in X; [|contradiction N]. change (co (low (dbox b)) i) with (lo b i) in X. change (co (high (dbox b)) i) with (hi b i) in X. rewrite <- F in X. lra.
    + exists w. split; [exact W|]. intros i Hi N. apply inside_gap_strict with n; auto. specialize (X i Hi). rewrite (E i Hi), seg_at_line in X. cbv zeta in X. destruct (Req_EM_T _ _) as [F|_] in X; [contradiction N|]. exact X.
  - intros T. apply P in T. destruct T as [Of (w & W & A)]. exists (seg_at (dseg s) w). split; [exists w; split; [exact W|intros i Hi; reflexivity]|]. intros i Hi. rewrite seg_at_line. destruct (Req_EM_T _ _) as [F|N].
    + pose proof (proj1 (flat_proper m n s b D1 Dl Dh i Hi) (Of i Hi F)) as K. change (p1 s i = p2 s i) in F. rewrite <- F. unfold lo, hi in K. cbn [dbox low high]. lra.
    + specialize (A i Hi N). exact (outside_gap m n s b D1 D2 Dl Dh i w Hi N (O i Hi) (conj (Rlt_le _ _ (proj1 A)) (Rlt_le _ _ (proj2 A)))).
Qed.
Print Assumptions C44_box_double.
Ltac num := unfold dseg, dbox, dval, co, D2; cbn [end1 end2 low high el map nth]; rewrite ?v0, ?v1, ?v2, ?v3, ?v9.
Lemma tiny_small : 0 < half_tiny <= / 1000000000000000.
Proof. change half_tiny with eta64. split; [apply eta64_pos|]. pose proof u_small. assert (eta64 <= u64) by (apply bpow_le; lia). lra. Qed.
Lemma moderate_whole s b : (forall i, (i < 2)%nat -> (-9 <= co (end1 s) i <= 9 /\ -9 <= co (end2 s) i <= 9 /\ -9 <= co (low b) i <= 9 /\ -9 <= co (high b) i <= 9) /\ (co (end1 s) i <> co (end2 s) i -> 1 <= Rabs (co (end2 s) i - co (end1 s) i))) -> moderate 2 s b.
Proof.
  intros A i Hi. destruct (A i Hi) as [(B1 & B2 & B3 & B4) K]. assert (B : 18 <= bpow radix2 1000) by (apply Rle_trans with (bpow radix2 5); [change (bpow radix2 5) with 32; lra|apply bpow_le; lia]).
  split; [repeat split; apply Rabs_le; lra|]. intros N. specialize (K N). assert (bpow radix2 1000 <= bpow radix2 1000 * Rabs (co (end2 s) i - co (end1 s) i)) by nra. split; (eapply Rle_trans; [|exact H]); apply Rabs_le; lra.
Qed.
(** The segment (0,0)-(9,3) has the point (2,2/3) well inside the box [1,3]x[0,2]. *)
Example C44_box_double_example : let s := mkS (D2 0 0) (D2 9 3) in let b := mkB (D2 1 0) (D2 3 2) in
  dpoint 2 (end1 s) /\ dpoint 2 (end2 s) /\ dpoint 2 (low b) /\ dpoint 2 (high b) /\ box_ordered 2 (dbox b) /\ moderate 2 (dseg s) (dbox b) /\
  exists x, in_segment_open 2 (dseg s) x /\ forall i, (i < 2)%nat ->
      let g := if Req_EM_T (co (end1 (dseg s)) i) (co (end2 (dseg s)) i) then 0 else reach (dseg s) (dbox b) i in
      co (low (dbox b)) i + g < x i < co (high (dbox b)) i - g.
Proof.
  cbv zeta. cbn [end1 end2 low high]. do 4 (split; [small_double|]). split; [intros [|[|i]] Hi; [dco|dco|lia]|]. split.
  - apply moderate_whole. intros [|[|i]] Hi; [| |lia]; num; (split; [repeat split; lra|]); intros _; rewrite Rabs_pos_eq; lra.
  - exists (seg_at (dseg (mkS (D2 0 0) (D2 9 3))) (2 / 9)). split; [exists (2 / 9); split; [lra|intros i Hi; reflexivity]|]. pose proof tiny_small as Ht. pose proof u_small as Hu. change u64 with half_ulp in Hu.
    intros [|[|i]] Hi; [| |lia]; destruct (Req_EM_T _ _) as [E|E].
    + exfalso. revert E. num. lra.
    + unfold reach, seg_at. num. rewrite (Rabs_pos_eq (1 - 0)), (Rabs_pos_eq (3 - 0)), (Rabs_pos_eq (9 - 0)), Rmax_right by lra. lra.
    + exfalso. revert E. num. lra.
    + unfold reach, seg_at. num. rewrite (Rabs_pos_eq (0 - 0)), (Rabs_pos_eq (2 - 0)), (Rabs_pos_eq (3 - 0)), Rmax_right by lra. lra.
Qed.

Lemma whole_diff (z : Z) : (Z.abs z <= 2 ^ 25)%Z -> rnd (IZR z) = IZR z.
Proof.
  intros Z. apply rnd_format. replace (IZR z) with (F2R (Float radix2 z 0)) by (unfold F2R; cbn; ring). apply generic_format_FLT. exists (Float radix2 z 0); [reflexivity| |cbn; lia]. cbn [Fnum]. eapply Z.le_lt_trans; [exact Z|reflexivity].
Qed.
(** When the differences of the coordinates are doubles themselves a common point is never missed. *)
Theorem C44_box_never_missed_double : forall (m : libm) n (s : segment spec_float) (b : axisbox spec_float),
  dpoint n (end1 s) -> dpoint n (end2 s) -> dpoint n (low b) -> dpoint n (high b) -> box_ordered n (dbox b) -> moderate n (dseg s) (dbox b) ->
  (forall i, (i < n)%nat -> forall p, In p [end2 s; low b; high b] -> nearest (co (dval p) i - co (dval (end1 s)) i) = co (dval p) i - co (dval (end1 s)) i) ->
  meet (in_segment n (dseg s)) (in_box n (dbox b)) -> i_seg_box (H := B64 m) n s b false = true.
Proof.
  intros m n s b D1 D2 Dl Dh O Md Ex (x & (w & W & E) & X). assert (Sz := fun i Hi => proj1 (Md i Hi)). assert (Qz := fun i Hi => proj2 (Md i Hi)).
  apply (exact_complete m n s b D1 D2 Dl Dh Sz Qz) with w; auto.
  - intros i Hi. split; [apply (Ex i Hi); simpl; auto|]. split; apply (Ex i Hi); simpl; auto.
  - intros i Hi. specialize (X i Hi). rewrite (E i Hi), seg_at_line in X. exact X.
Qed.
Print Assumptions C44_box_never_missed_double.
(** The segment (0,0)-(9,3) touches the box [3,9]x[0,1] in (3,1). *)
Example C44_box_never_missed_double_example : let s := mkS (D2 0 0) (D2 9 3) in let b := mkB (D2 3 0) (D2 9 1) in
  box_ordered 2 (dbox b) /\ moderate 2 (dseg s) (dbox b) /\
  (forall i, (i < 2)%nat -> forall p, In p [end2 s; low b; high b] -> nearest (co (dval p) i - co (dval (end1 s)) i) = co (dval p) i - co (dval (end1 s)) i) /\
  meet (in_segment 2 (dseg s)) (in_box 2 (dbox b)).
Proof.
  cbv zeta. split; [intros [|[|i]] Hi; [dco|dco|lia]|]. split; [|split].
  - apply moderate_whole. intros [|[|i]] Hi; [| |lia]; num; (split; [repeat split; lra|]); intros _; rewrite Rabs_pos_eq; lra.
  - intros [|[|i]] Hi p Hp; [| |lia]; cbn [end1]; replace (co (dval (D2 0 0)) _) with 0 by (num; reflexivity); rewrite Rminus_0_r; destruct Hp as [<-|[<-|[<-|[]]]]; cbn [end2 low high]; num; match goal with |- nearest ?x = _ => change (rnd x = x) end; [..]; first [exact rnd_0|now rewrite (whole_diff 1) by lia|now rewrite (whole_diff 3) by lia|now rewrite (whole_diff 9) by lia].
  - exists (seg_at (dseg (mkS (D2 0 0) (D2 9 3))) (1 / 3)). split; [exists (1 / 3); split; [lra|intros i Hi; reflexivity]|]. intros [|[|i]] Hi; [| |lia]; unfold seg_at; num; lra.
Qed.

Lemma whole_big (z : Z) : (Z.abs z <= 2 ^ 25)%Z -> Rabs (IZR z) <= bpow radix2 1000.
Proof. intros Z. rewrite <- abs_IZR. apply Rle_trans with (bpow radix2 25); [change (bpow radix2 25) with (IZR (2 ^ 25)); now apply IZR_le|apply bpow_le; lia]. Qed.
(** For whole numbers up to 2^24 the answer is exact, whatever the dimension. *)
Definition whole_point (n : nat) (p : point R) : Prop := forall i, (i < n)%nat -> exists z, co p i = IZR z /\ (Z.abs z <= 2 ^ 24)%Z.
Theorem C44_box_whole_double : forall (m : libm) n (s : segment spec_float) (b : axisbox spec_float),
  dpoint n (end1 s) -> dpoint n (end2 s) -> dpoint n (low b) -> dpoint n (high b) -> box_ordered n (dbox b) ->
  whole_point n (dval (end1 s)) -> whole_point n (dval (end2 s)) -> whole_point n (dval (low b)) -> whole_point n (dval (high b)) ->
  (i_seg_box (H := B64 m) n s b false = true <-> meet (in_segment n (dseg s)) (in_box n (dbox b))) /\
  (i_seg_box (H := B64 m) n s b true = true <-> meet (in_segment_open n (dseg s)) (in_box_open n (dbox b))).
Proof.
  intros m n s b D1 D2 Dl Dh O W1 W2 W3 W4.
  assert (Wh : forall i, (i < n)%nat -> exists a c l h : Z, p1 s i = IZR a /\ p2 s i = IZR c /\ lo b i = IZR l /\ hi b i = IZR h /\ (Z.abs a <= 2 ^ 24)%Z /\ (Z.abs c <= 2 ^ 24)%Z /\ (Z.abs l <= 2 ^ 24)%Z /\ (Z.abs h <= 2 ^ 24)%Z).
  { intros i Hi. destruct (W1 i Hi) as (a & A1 & A2). destruct (W2 i Hi) as (c & C1 & C2). destruct (W3 i Hi) as (l & L1 & L2). destruct (W4 i Hi) as (h & H1 & H2). exists a, c, l, h. auto 9. }
  assert (Sz : forall i, (i < n)%nat -> Rabs (p1 s i) <= bpow radix2 1000 /\ Rabs (p2 s i) <= bpow radix2 1000 /\ Rabs (lo b i) <= bpow radix2 1000 /\ Rabs (hi b i) <= bpow radix2 1000).
  { intros i Hi. destruct (Wh i Hi) as (a & c & l & h & -> & -> & -> & -> & B1 & B2 & B3 & B4). repeat split; apply whole_big; lia. }
  assert (Qz : forall i, (i < n)%nat -> p1 s i <> p2 s i -> Rabs (lo b i - p1 s i) <= bpow radix2 1000 * Rabs (p2 s i - p1 s i) /\ Rabs (hi b i - p1 s i) <= bpow radix2 1000 * Rabs (p2 s i - p1 s i)).
  { intros i Hi N. destruct (Wh i Hi) as (a & c & l & h & E1 & E2 & E3 & E4 & B1 & B2 & B3 & B4). rewrite E1, E2, E3, E4 in *. rewrite <- !minus_IZR. assert (K : 1 <= Rabs (IZR (c - a))). { rewrite <- abs_IZR. apply (IZR_le 1). assert (c <> a) by congruence. lia. }
    pose proof (whole_big (l - a) ltac:(lia)) as B5. pose proof (whole_big (h - a) ltac:(lia)) as B6. pose proof (bpow_gt_0 radix2 1000). split; nra. }
  assert (Ex : forall i, (i < n)%nat -> rnd (p2 s i - p1 s i) = p2 s i - p1 s i /\ rnd (lo b i - p1 s i) = lo b i - p1 s i /\ rnd (hi b i - p1 s i) = hi b i - p1 s i).
  { intros i Hi. destruct (Wh i Hi) as (a & c & l & h & E1 & E2 & E3 & E4 & B1 & B2 & B3 & B4). rewrite E1, E2, E3, E4 in *. rewrite <- !minus_IZR. repeat split; apply whole_diff; lia. }
  split.
  - rewrite (whole m n s b D1 D2 Dl Dh Sz Qz Ex Wh O). split.
    + intros (w & W & A). exists (seg_at (dseg s) w). split; [exists w; split; [exact W|intros i Hi; reflexivity]|]. intros i Hi. rewrite seg_at_line. exact (A i Hi).
    + intros (x & (w & W & E) & X). exists w. split; [exact W|]. intros i Hi. specialize (X i Hi). rewrite (E i Hi), seg_at_line in X. exact X.
  - rewrite (whole_proper m n s b D1 D2 Dl Dh Sz Qz Ex Wh O). split.
    + intros (w & W & A). exists (seg_at (dseg s) w). split; [exists w; split; [exact W|intros i Hi; reflexivity]|]. intros i Hi. rewrite seg_at_line. exact (A i Hi).
    + intros (x & (w & W & E) & X). exists w. split; [exact W|]. intros i Hi. specialize (X i Hi). rewrite (E i Hi), seg_at_line in X. exact X.
Qed.
Print Assumptions C44_box_whole_double.
(** The segment (0,0)-(9,3) meets the box [3,9]x[0,1] in one point of its side. *)
Example C44_box_whole_double_example : let s := mkS (D2 0 0) (D2 9 3) in let b := mkB (D2 3 0) (D2 9 1) in
  dpoint 2 (end1 s) /\ dpoint 2 (end2 s) /\ dpoint 2 (low b) /\ dpoint 2 (high b) /\ box_ordered 2 (dbox b) /\
  whole_point 2 (dval (end1 s)) /\ whole_point 2 (dval (end2 s)) /\ whole_point 2 (dval (low b)) /\ whole_point 2 (dval (high b)) /\
  meet (in_segment 2 (dseg s)) (in_box 2 (dbox b)) /\ ~ meet (in_segment_open 2 (dseg s)) (in_box_open 2 (dbox b)).
Proof.
  cbv zeta. cbn [end1 end2 low high]. do 4 (split; [small_double|]). split; [intros [|[|i]] Hi; [dco|dco|lia]|].
  split; [intros [|[|i]] Hi; [exists 0%Z|exists 0%Z|lia]; (split; [num; lra|lia])|]. split; [intros [|[|i]] Hi; [exists 9%Z|exists 3%Z|lia]; (split; [num; lra|lia])|].
  split; [intros [|[|i]] Hi; [exists 3%Z|exists 0%Z|lia]; (split; [num; lra|lia])|]. split; [intros [|[|i]] Hi; [exists 9%Z|exists 1%Z|lia]; (split; [num; lra|lia])|]. split.
  - exists (seg_at (dseg (mkS (D2 0 0) (D2 9 3))) (1 / 3)). split; [exists (1 / 3); split; [lra|intros i Hi; reflexivity]|]. intros [|[|i]] Hi; [| |lia]; unfold seg_at; num; lra.
  - intros (x & (w & W & E) & X). pose proof (X 0%nat ltac:(lia)) as X0. pose proof (X 1%nat ltac:(lia)) as X1. rewrite (E 0%nat ltac:(lia)) in X0. rewrite (E 1%nat ltac:(lia)) in X1. revert X0 X1. unfold seg_at. num. lra.
Qed.

(** In general a common point can be missed: the segment from (0, 2^-53 - 1) to (3, 1 - 3 * 2^-52) goes through (1, y),
    a corner of the box [0,1] x [y,5], and is found not to meet the box. *)
Definition miss_s : segment spec_float := mkS (mkC [S754_zero false; S754_finite true 9007199254740991 (-53)] true) (mkC [b64_ofZ 3; S754_finite false 9007199254740986 (-53)] true).
Definition miss_b : axisbox spec_float := mkB (mkC [S754_zero false; S754_finite true 6004799503160664 (-54)] true) (mkC [b64_ofZ 1; b64_ofZ 5] true).
Theorem C44_box_double_refuted : exists (s : segment spec_float) (b : axisbox spec_float), dpoint 2 (end1 s) /\ dpoint 2 (end2 s) /\ dpoint 2 (low b) /\ dpoint 2 (high b) /\
  box_thick 2 (dbox b) /\ moderate 2 (dseg s) (dbox b) /\ meet (in_segment_open 2 (dseg s)) (in_box 2 (dbox b)) /\ forall m, i_seg_box (H := B64 m) 2 s b false = false.
Proof.
  exists miss_s, miss_b.
  assert (F : forall x y : spec_float, fl x -> fl y -> dpoint 2 (mkC [x; y] true)) by (intros x y X Y [|[|i]] Hi; [exact X|exact Y|lia]).
  assert (K3 : b64_ofZ 3 = S754_finite false 6755399441055744 (-51)) by (vm_compute; reflexivity). assert (K1 : b64_ofZ 1 = S754_finite false 4503599627370496 (-52)) by (vm_compute; reflexivity). assert (K5 : b64_ofZ 5 = S754_finite false 5629499534213120 (-50)) by (vm_compute; reflexivity).
  assert (B : 4 <= bpow radix2 1000) by (change 4 with (bpow radix2 2); apply bpow_le; lia). assert (B5 : 5 <= bpow radix2 1000) by (apply Rle_trans with (bpow radix2 3); [change (bpow radix2 3) with 8; lra|apply bpow_le; lia]).
  unfold miss_s, miss_b. split; [apply F; split; vm_compute; reflexivity|]. split; [apply F; split; vm_compute; reflexivity|]. split; [apply F; split; vm_compute; reflexivity|]. split; [apply F; split; vm_compute; reflexivity|].
  assert (Va : val (S754_finite true 9007199254740991 (-53)) = - (9007199254740991 / 9007199254740992)) by (unfold val, SF2R, F2R, bpow; simpl; lra).
  assert (Vb : val (S754_finite false 9007199254740986 (-53)) = 9007199254740986 / 9007199254740992) by (unfold val, SF2R, F2R, bpow; simpl; lra).
  assert (Vm : val (S754_finite true 6004799503160664 (-54)) = - (6004799503160664 / 18014398509481984)) by (unfold val, SF2R, F2R, bpow; simpl; lra).
  assert (V5 : val (b64_ofZ 5) = 5) by (rewrite K5; unfold val, SF2R, F2R, bpow; simpl; lra).
  split; [|split; [|split]].
  - intros [|[|i]] Hi; [| |lia]; unfold dbox, dval, co; cbn [low high el map nth]; rewrite ?v1, ?V5, ?Vm; change (val (S754_zero false)) with 0; lra.
  - intros [|[|i]] Hi; [| |lia]; unfold dseg, dbox, dval, co; cbn [end1 end2 low high el map nth]; rewrite ?v1, ?v3, ?V5, ?Va, ?Vb, ?Vm; change (val (S754_zero false)) with 0.
    + split; [repeat split; apply Rabs_le; lra|]. intros _. rewrite (Rabs_pos_eq (3 - 0)) by lra. split; apply Rabs_le; lra.
    + split; [repeat split; apply Rabs_le; lra|]. intros _. rewrite (Rabs_pos_eq (9007199254740986 / 9007199254740992 - - (9007199254740991 / 9007199254740992))) by lra. split; apply Rabs_le; lra.
  - exists (seg_at (dseg (mkS (mkC [S754_zero false; S754_finite true 9007199254740991 (-53)] true) (mkC [b64_ofZ 3; S754_finite false 9007199254740986 (-53)] true))) (1 / 3)). split; [exists (1 / 3); split; [lra|intros i Hi; reflexivity]|].
    intros [|[|i]] Hi; [| |lia]; unfold seg_at, dseg, dbox, dval, co; cbn [end1 end2 low high el map nth]; rewrite ?v1, ?v3, ?V5, ?Va, ?Vb, ?Vm; change (val (S754_zero false)) with 0; lra.
  - intros m. vm_compute. reflexivity.
Qed.
Print Assumptions C44_box_double_refuted.

(** A box contains a segment: the comparisons of the two ends. *)
Theorem C44_box_contains_segment_double : forall (m : libm) n (b : axisbox spec_float) (s : segment spec_float),
  dpoint n (end1 s) -> dpoint n (end2 s) -> dpoint n (low b) -> dpoint n (high b) ->
  (incl (in_segment n (dseg s)) (near_box n deps (dbox b)) -> c_box_seg (H := B64 m) n b s false = true) /\
  (c_box_seg (H := B64 m) n b s false = true -> incl (in_segment n (dseg s)) (near_box n (deps * (1 + bpow Zaux.radix2 (-52))) (dbox b))) /\
  (c_box_seg (H := B64 m) n b s true = true <-> incl (in_segment n (dseg s)) (in_box_open n (dbox b))).
Proof.
  intros m n b s D1 D2 Dl Dh. destruct (box_box_double m n b (mkB (end1 s) (end1 s)) (conj Dl Dh) (conj D1 D1)) as (P1 & Q1 & U1). destruct (box_box_double m n b (mkB (end2 s) (end2 s)) (conj Dl Dh) (conj D2 D2)) as (P2 & Q2 & U2).
  assert (E1 : in_segment n (dseg s) (co (dval (end1 s)))) by (exists 0; split; [lra|]; intros i Hi; unfold seg_at, dseg; cbn [end1 end2]; ring). assert (E2 : in_segment n (dseg s) (co (dval (end2 s)))) by (exists 1; split; [lra|]; intros i Hi; unfold seg_at, dseg; cbn [end1 end2]; ring).
  change (c_box_seg (H := B64 m) n b s) with (fun pr => i_box_box (H := B64 m) n b (mkB (end1 s) (end1 s)) pr && i_box_box (H := B64 m) n b (mkB (end2 s) (end2 s)) pr). cbv beta. rewrite !andb_true_iff. cbn [dbox low high] in *.
  split; [|split; [|split]].
  - intros I. split; [apply P1|apply P2]; intros i Hi; [pose proof (I _ E1 i Hi) as K|pose proof (I _ E2 i Hi) as K]; cbn [low high dbox] in K; lra.
  - intros [A B] x (w & W & E) i Hi. specialize (Q1 A i Hi). specialize (Q2 B i Hi). rewrite (E i Hi). unfold seg_at, dseg. cbn [end1 end2 dbox low high]. split; nra.
  - intros [A B] x (w & W & E) i Hi. pose proof (proj1 U1 A i Hi) as K1. pose proof (proj1 U2 B i Hi) as K2. rewrite (E i Hi). unfold seg_at, dseg. cbn [end1 end2 dbox low high].
    destruct (Req_dec w 0) as [->|N0]; [lra|]. split; nra.
  - intros I. split; [apply U1|apply U2]; intros i Hi; [pose proof (I _ E1 i Hi) as K|pose proof (I _ E2 i Hi) as K]; cbn [low high dbox] in K; lra.
Qed.
Print Assumptions C44_box_contains_segment_double.
Example C44_box_contains_segment_double_example : let s := mkS (D2 1 1) (D2 2 1) in let b := mkB (D2 0 0) (D2 3 2) in
  dpoint 2 (end1 s) /\ dpoint 2 (end2 s) /\ dpoint 2 (low b) /\ dpoint 2 (high b) /\ incl (in_segment 2 (dseg s)) (in_box_open 2 (dbox b)).
Proof.
  cbv zeta. cbn [end1 end2 low high]. do 4 (split; [small_double|]). intros x (w & W & E) [|[|i]] Hi; [| |lia]; rewrite (E _ Hi); unfold seg_at; num; lra.
Qed.

(** A ball contains a segment: every segment inside is accepted, with [proper] or without. *)
Lemma rco_dval p i : rco p i = co (dval p) i.
Proof. unfold rco, co, dval. cbn [el]. change 0 with (val (S754_zero false)). rewrite map_nth. reflexivity. Qed.
Theorem C44_ball_contains_segment_double : forall (m : libm) n (b : ball spec_float) (s : segment spec_float) proper, (n <= 50)%nat ->
  doubles n (center b) -> doubles n (end1 s) -> doubles n (end2 s) -> finite_double (radius b) -> bpow radix2 (-495) <= real (radius b) <= bpow radix2 500 ->
  incl (in_segment n (dseg s)) (in_ball n (mkBall (dval (center b)) (real (radius b)))) -> c_ball_seg (H := B64 m) n b s proper = true.
Proof.
  intros m n b s proper L Dc D1 D2 Fr Rr I. unfold c_ball_seg. rewrite andb_true_iff.
  assert (E1 : in_segment n (dseg s) (rco (end1 s))) by (exists 0; split; [lra|]; intros i Hi; unfold seg_at, dseg; cbn [end1 end2]; rewrite rco_dval; ring). assert (E2 : in_segment n (dseg s) (rco (end2 s))) by (exists 1; split; [lra|]; intros i Hi; unfold seg_at, dseg; cbn [end1 end2]; rewrite rco_dval; ring).
  assert (Ext : forall y, dist n (rco (center b)) y = dist n (co (dval (center b))) y) by (intros y; apply dist_ext; intros i Hi; [apply rco_dval|reflexivity]).
  split; apply C42_point_double; auto; rewrite Ext; [exact (I _ E1)|exact (I _ E2)].
Qed.
Print Assumptions C44_ball_contains_segment_double.
Example C44_ball_contains_segment_double_example : let b := mkBall (D2 1 2) (b64_ofZ 3) in let s := mkS (D2 1 2) (D2 3 3) in
  doubles 2 (center b) /\ doubles 2 (end1 s) /\ doubles 2 (end2 s) /\ finite_double (radius b) /\ bpow radix2 (-495) <= real (radius b) <= bpow radix2 500 /\
  incl (in_segment 2 (dseg s)) (in_ball 2 (mkBall (dval (center b)) (real (radius b)))).
Proof.
  cbv zeta. cbn [center radius end1 end2]. do 3 (split; [doubles_now|]). split; [apply fl_iff; split; [vm_compute; reflexivity|reflexivity]|]. change real with val. rewrite v3. split.
  - split; [apply Rle_trans with (bpow radix2 0); [apply bpow_le; lia|cbn; lra]|apply Rle_trans with (bpow radix2 2); [cbn; lra|apply bpow_le; lia]].
  - intros x (w & W & E). unfold in_ball. cbn [center radius]. unfold dist. rewrite <- (sqrt_Rsqr 3) by lra. apply sqrt_le_1_alt. unfold dist2, norm2, inner. cbn [Rsum]. rewrite (E 0%nat), (E 1%nat) by lia. unfold seg_at, Rsqr. num. nra.
Qed.
