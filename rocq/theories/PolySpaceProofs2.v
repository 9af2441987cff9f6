(** Polygons in three dimensions against segments, in exact arithmetic. *)
From Coq Require Import Reals List Bool Lra Lia Psatz Permutation Classical.
From Flocq Require Import Core.Raux.
From Verif Require Import Base Scalar ConstModel VecModel RotModel QuatModel VecSpec RSpec RotSpec RLib MatLib VecProofs VecProofs4 ConstProofs ShapeSpec ShapeModel IntersectModel ShapeProofs ShapeProofs2 ShapeProofs3 BallProofs MotionProofs2 PolyModel PolySpec PolyProofs PolyIntersectModel EvenOddSpec EvenOddProofs RegionSpec RegionProofs PolyShapeProofs PolyShapeProofs2 SpaceSpec PolySpaceProofs.
Import ListNotations.
Open Scope R_scope.
#[local] Existing Instance Rnum | 0.
#[local] Existing Instance eps0.

Lemma sum3 (f : nat -> R) : Rsum 3 f = f 0%nat + f 1%nat + f 2%nat.
Proof. unfold Rsum. cbn. ring. Qed.
(** Two vectors at right angles to two orthonormal ones are parallel. *)
Lemma perp_parallel (a b v w : nat -> R) : norm2 3 a = 1 -> norm2 3 b = 1 -> inner 3 a b = 0 -> inner 3 a v = 0 -> inner 3 b v = 0 -> inner 3 a w = 0 -> inner 3 b w = 0 ->
  inner 3 v w * inner 3 v w = norm2 3 v * norm2 3 w.
Proof.
  unfold norm2, inner. rewrite !sum3. set (a0 := a 0%nat). set (a1 := a 1%nat). set (a2 := a 2%nat). set (b0 := b 0%nat). set (b1 := b 1%nat). set (b2 := b 2%nat).
  set (v0 := v 0%nat). set (v1 := v 1%nat). set (v2 := v 2%nat). set (w0 := w 0%nat). set (w1 := w 1%nat). set (w2 := w 2%nat). clearbody a0 a1 a2 b0 b1 b2 v0 v1 v2 w0 w1 w2.
  intros A B AB AV BV AW BW. set (x0 := v1 * w2 - v2 * w1). set (x1 := v2 * w0 - v0 * w2). set (x2 := v0 * w1 - v1 * w0).
  (* a x (v x w) = v (a.w) - w (a.v) *)
  assert (P : forall c0 c1 c2, c0 * v0 + c1 * v1 + c2 * v2 = 0 -> c0 * w0 + c1 * w1 + c2 * w2 = 0 -> c1 * x2 = c2 * x1 /\ c2 * x0 = c0 * x2 /\ c0 * x1 = c1 * x0).
  { intros c0 c1 c2 CV CW. unfold x0, x1, x2. split; [|split]; apply Rminus_diag_uniq.
    - transitivity (v0 * (c0 * w0 + c1 * w1 + c2 * w2) - w0 * (c0 * v0 + c1 * v1 + c2 * v2)); [ring|rewrite CV, CW; ring].
    - transitivity (v1 * (c0 * w0 + c1 * w1 + c2 * w2) - w1 * (c0 * v0 + c1 * v1 + c2 * v2)); [ring|rewrite CV, CW; ring].
    - transitivity (v2 * (c0 * w0 + c1 * w1 + c2 * w2) - w2 * (c0 * v0 + c1 * v1 + c2 * v2)); [ring|rewrite CV, CW; ring]. }
  destruct (P a0 a1 a2 ltac:(lra) ltac:(lra)) as (A1 & A2 & A3). destruct (P b0 b1 b2 ltac:(lra) ltac:(lra)) as (B1 & B2 & B3).
  assert (L : forall c0 c1 c2, 0 + c0 * c0 + c1 * c1 + c2 * c2 = 1 \/ c0 * c0 + c1 * c1 + c2 * c2 = 1 -> c1 * x2 = c2 * x1 -> c2 * x0 = c0 * x2 -> c0 * x1 = c1 * x0 ->
    let k := c0 * x0 + c1 * x1 + c2 * x2 in x0 = k * c0 /\ x1 = k * c1 /\ x2 = k * c2).
  { intros c0 c1 c2 C E1 E2 E3 k. assert (C' : c0 * c0 + c1 * c1 + c2 * c2 = 1) by (destruct C; lra). unfold k. split; [|split].
    - transitivity ((c0 * c0 + c1 * c1 + c2 * c2) * x0); [rewrite C'; ring|]. transitivity (c0 * c0 * x0 + c1 * (c1 * x0) + c2 * (c2 * x0)); [ring|]. rewrite <- E3, E2. ring.
    - transitivity ((c0 * c0 + c1 * c1 + c2 * c2) * x1); [rewrite C'; ring|]. transitivity (c0 * (c0 * x1) + c1 * c1 * x1 + c2 * (c2 * x1)); [ring|]. rewrite E3, <- E1. ring.
    - transitivity ((c0 * c0 + c1 * c1 + c2 * c2) * x2); [rewrite C'; ring|]. transitivity (c0 * (c0 * x2) + c1 * (c1 * x2) + c2 * c2 * x2); [ring|]. rewrite <- E2, E1. ring. }
  destruct (L a0 a1 a2 ltac:(lra) A1 A2 A3) as (X0 & X1 & X2). destruct (L b0 b1 b2 ltac:(lra) B1 B2 B3) as (Y0 & Y1 & Y2).
  set (ka := a0 * x0 + a1 * x1 + a2 * x2) in *. set (kb := b0 * x0 + b1 * x1 + b2 * x2) in *.
  assert (Kb : kb = 0). { unfold kb. rewrite X0, X1, X2. transitivity (ka * (a0 * b0 + a1 * b1 + a2 * b2)); [ring|]. replace (a0 * b0 + a1 * b1 + a2 * b2) with 0 by lra. ring. }
  rewrite Kb in *. assert (x0 = 0) by lra. assert (x1 = 0) by lra. assert (x2 = 0) by lra.
  apply Rminus_diag_uniq. transitivity (- (x0 * x0 + x1 * x1 + x2 * x2)); [unfold x0, x1, x2; ring|]. replace x0 with 0 by auto. replace x1 with 0 by auto. replace x2 with 0 by auto. ring.
Qed.
(** The offset from a plane and the foot. *)
Lemma offset_plane n o (c : coords R) : frame_ok n o -> valid (pax0 o) = true -> valid (pax1 o) = true ->
  exists off c2, orient_offset n o c = Ret (off, c2) /\ inner n (co (pax0 o)) (co off) = 0 /\ inner n (co (pax1 o)) (co off) = 0 /\ pteq n (co c) (fun i => placed o (co c2) i + co off i).
Proof.
  intros (F1 & F2 & F3 & F4) V0 V1. unfold orient_offset. rewrite (F2 V0). cbn [oassert]. eexists. eexists. split; [reflexivity|].
  set (o1 := vec_sub n c (porigin o)). set (x := dot n o1 (pax0 o)). set (o2 := vec_sub n o1 (vec_scale n (pax0 o) x)). set (y := dot n o2 (pax1 o)).
  set (a := co (pax0 o)) in *. set (b := co (pax1 o)) in *. set (s := fun i => co c i - co (porigin o) i). specialize (F3 V0). destruct (F4 V1) as [B AB].
  assert (Ex : x = inner n s a). { unfold x. rewrite (dot_inner n). apply inner_ext; auto. intros i Hi. unfold o1. now rewrite sub_co. }
  assert (Eo2 : forall i, (i < n)%nat -> co o2 i = s i - x * a i). { intros i Hi. unfold o2, o1. rewrite sub_co, scale_co, sub_co by auto. unfold s, a. ring. }
  assert (Ey : y = inner n s b). { unfold y. rewrite (dot_inner n). transitivity (inner n (fun i => s i - x * a i) b); [apply inner_ext; auto|]. rewrite inner_minus_l, inner_scal_l, AB. ring. }
  assert (Eo : forall i, (i < n)%nat -> co (vec_sub n o2 (vec_scale n (pax1 o) y)) i = s i - (x * a i + y * b i)). { intros i Hi. rewrite sub_co, scale_co, Eo2 by auto. unfold b. ring. }
  split; [|split].
  - transitivity (inner n a (fun i => s i - (x * a i + y * b i))); [apply inner_ext; auto|]. rewrite inner_minus_r, inner_plus_r, !inner_scal_r, AB. fold (norm2 n a). rewrite F3, (inner_comm n a s), <- Ex. ring.
  - transitivity (inner n b (fun i => s i - (x * a i + y * b i))); [apply inner_ext; auto|]. rewrite inner_minus_r, inner_plus_r, !inner_scal_r, (inner_comm n b a), AB. fold (norm2 n b). rewrite B, (inner_comm n b s), <- Ey. ring.
  - intros i Hi. rewrite (Eo i Hi). unfold placed, s. rewrite V0, V1. fold a b. unfold pt2, co. cbn [el nth]. unfold co. ring.
Qed.
Lemma placed_inj o (u v : pt) : frame_ok 3 o -> valid (pax0 o) = true -> valid (pax1 o) = true -> forall w : pt, inner 3 (co (pax0 o)) w = 0 -> inner 3 (co (pax1 o)) w = 0 ->
  (forall i, (i < 3)%nat -> placed o u i = placed o v i + w i) -> pteq 2 u v /\ forall i, (i < 3)%nat -> w i = 0.
Proof.
  intros (F1 & F2 & F3 & F4) V0 V1 w W0 W1 E. specialize (F3 V0). destruct (F4 V1) as [B AB]. set (a := co (pax0 o)) in *. set (b := co (pax1 o)) in *.
  assert (Ew : forall i, (i < 3)%nat -> w i = (u 0%nat - v 0%nat) * a i + (u 1%nat - v 1%nat) * b i). { intros i Hi. specialize (E i Hi). unfold placed in E. rewrite V0, V1 in E. fold a b in E. lra. }
  assert (X : u 0%nat - v 0%nat = 0).
  { rewrite <- W0. transitivity (inner 3 a (fun i => (u 0%nat - v 0%nat) * a i + (u 1%nat - v 1%nat) * b i)); [|symmetry; apply inner_ext; auto]. rewrite inner_plus_r, !inner_scal_r, AB. fold (norm2 3 a). rewrite F3. ring. }
  assert (Y : u 1%nat - v 1%nat = 0).
  { rewrite <- W1. transitivity (inner 3 b (fun i => (u 0%nat - v 0%nat) * a i + (u 1%nat - v 1%nat) * b i)); [|symmetry; apply inner_ext; auto]. rewrite inner_plus_r, !inner_scal_r, (inner_comm 3 b a), AB. fold (norm2 3 b). rewrite B. ring. }
  split; [intros [|[|i]] Hi; lra || lia|]. intros i Hi. rewrite (Ew i Hi), X, Y. ring.
Qed.
Lemma placed_comb o (u v : pt) k l : k + l = 1 -> forall i, placed o (fun j => k * u j + l * v j) i = k * placed o u i + l * placed o v i.
Proof. intros E i. unfold placed. replace (co (porigin o) i) with ((k + l) * co (porigin o) i) at 1 by (rewrite E; ring). destruct (valid (pax0 o)), (valid (pax1 o)); ring. Qed.

Section Seg.
Variables (p : polygon R) (s : segment R).
Hypothesis O : pg_ok 3 p.
Hypothesis V0 : valid (pax0 (pplane p)) = true.
Hypothesis V1 : valid (pax1 (pplane p)) = true.
Hypothesis N : pcorners p <> [].
Hypothesis Out : ~ (in_plane 3 (pplane p) (co (end1 s)) /\ in_plane 3 (pplane p) (co (end2 s))).
Let a := co (pax0 (pplane p)).
Let b := co (pax1 (pplane p)).
Lemma space_seg proper : exists r, i_pg_seg 3 p s proper = Ret r /\
  (r = true -> meet (space_region 3 p) (in_segment 3 s)) /\ (meet (space_interior 3 p) (in_segment 3 s) -> r = true).
Proof.
  unfold i_pg_seg. destruct (offset_plane 3 (pplane p) (end1 s) (proj1 O) V0 V1) as (f & p1 & E1 & Fa & Fb & P1). destruct (offset_plane 3 (pplane p) (end2 s) (proj1 O) V0 V1) as (g & p2 & E2 & Ga & Gb & P2).
  destruct (pcorners p) as [|c l] eqn:El; [easy|]. cbv beta iota. rewrite <- El in *. unfold point in *. rewrite E1. cbn [obind]. rewrite E2. cbn [obind]. rewrite (dot_inner 3), !mag_norm. cbn [nadd nmul ndiv nltb neqb Rnum].
  change (at_ ?x 0) with (co x 0). change (at_ ?x 1) with (co x 1). replace (n0 : R) with 0 by reflexivity.
  destruct (proj1 O) as (F1 & F2 & F3 & F4). pose proof (F3 V0) as A. destruct (F4 V1) as [B AB]. fold a b in A, B, AB.
  pose proof (perp_parallel a b (co f) (co g) A B AB Fa Fb Ga Gb) as Par.
  set (d1 := norm 3 (co f)). set (d2 := norm 3 (co g)). pose proof (norm2_nonneg 3 (co f)) as Nf. pose proof (norm2_nonneg 3 (co g)) as Ng.
  assert (D1 : 0 <= d1) by apply sqrt_pos. assert (D2 : 0 <= d2) by apply sqrt_pos. assert (S1 : d1 * d1 = norm2 3 (co f)) by (apply sqrt_sqrt; auto). assert (S2 : d2 * d2 = norm2 3 (co g)) by (apply sqrt_sqrt; auto).
  set (q := inner 3 (co f) (co g)) in *.
  (* where the segment meets the plane *)
  assert (Meet : forall t u, (forall i, (i < 3)%nat -> seg_at s t i = placed (pplane p) u i) -> pteq 2 u (fun j => (1 - t) * co p1 j + t * co p2 j) /\ (forall i, (i < 3)%nat -> (1 - t) * co f i + t * co g i = 0)).
  { intros t u E. apply (placed_inj (pplane p) u _ (proj1 O) V0 V1 (fun i => (1 - t) * co f i + t * co g i)).
    - rewrite inner_plus_r, !inner_scal_r. fold a in Fa, Ga |- *. rewrite Fa, Ga. ring.
    - rewrite inner_plus_r, !inner_scal_r. fold b in Fb, Gb |- *. rewrite Fb, Gb. ring.
    - intros i Hi. rewrite <- (E i Hi). unfold seg_at. rewrite (P1 i Hi), (P2 i Hi). rewrite placed_comb by ring. ring. }
  assert (Zero : forall t, (forall i, (i < 3)%nat -> (1 - t) * co f i + t * co g i = 0) -> (1 - t) * (d1 * d1) + t * q = 0 /\ (1 - t) * q + t * (d2 * d2) = 0).
  { intros t Z. rewrite S1, S2. split.
    - transitivity (inner 3 (co f) (fun i => (1 - t) * co f i + t * co g i)); [rewrite inner_plus_r, !inner_scal_r; reflexivity|]. unfold inner. apply Rsum_zero. intros i Hi. rewrite (Z i Hi). ring.
    - transitivity (inner 3 (co g) (fun i => (1 - t) * co f i + t * co g i)); [rewrite inner_plus_r, !inner_scal_r, (inner_comm 3 (co g) (co f)); reflexivity|]. unfold inner. apply Rsum_zero. intros i Hi. rewrite (Z i Hi). ring. }
  destruct (Rlt_bool_spec 0 q) as [Q|Q].
  - exists false. split; auto. split; [discriminate|]. intros (y & (u & U & Y) & (t & Ht & Yt)).
    destruct (Meet t u) as [_ Z]; [intros i Hi; rewrite <- (Yt i Hi), (Y i Hi); reflexivity|]. destruct (Zero t Z) as [Z1 Z2]. exfalso.
    assert (P0 : 0 < d1 * d1). { apply Rnot_le_lt. intros X. assert (d1 * d1 = 0) by (pose proof (Rmult_le_pos d1 d1 D1 D1); lra). rewrite <- S1 in Par. rewrite H in Par. pose proof (Rmult_lt_0_compat q q Q Q). lra. }
    destruct (Req_dec t 0) as [-> |T0]; [lra|]. pose proof (Rmult_lt_0_compat t q ltac:(lra) Q). pose proof (Rmult_le_pos (1 - t) (d1 * d1) ltac:(lra) ltac:(lra)). lra.
  - assert (Eq : q = - (d1 * d2)).
    { assert (X : (q + d1 * d2) * (q - d1 * d2) = 0). { transitivity (q * q - (d1 * d1) * (d2 * d2)); [ring|]. rewrite S1, S2, Par. ring. }
      apply Rmult_integral in X. pose proof (Rmult_le_pos d1 d2 D1 D2). destruct X; lra. }
    destruct (Req_dec (d1 + d2) 0) as [Z|Nz].
    + exfalso. apply Out. assert (d1 = 0) by lra. assert (d2 = 0) by lra. assert (Zf : forall i, (i < 3)%nat -> co f i = 0) by (apply norm2_zero; rewrite <- S1; rewrite H; ring).
      assert (Zg : forall i, (i < 3)%nat -> co g i = 0) by (apply norm2_zero; rewrite <- S2; rewrite H0; ring).
      split; [exists (co p1 0), (co p1 1)|exists (co p2 0), (co p2 1)]; intros i Hi; [rewrite (P1 i Hi), (Zf i Hi)|rewrite (P2 i Hi), (Zg i Hi)]; unfold placed; rewrite V0, V1; ring.
    + rewrite (Req_bool_false (d1 + d2) 0) by auto. set (t := d1 / (d1 + d2)).
      assert (T : 0 <= t <= 1). { unfold t. split; [apply Rle_mult_inv_pos; lra|]. apply (Rmult_le_reg_r (d1 + d2)); [lra|]. unfold Rdiv. rewrite Rmult_assoc, Rinv_l by auto. lra. }
      assert (T1 : 1 - t = d2 / (d1 + d2)) by (unfold t; field; auto).
      set (P := pt2 ((co p1 0 * d2 + co p2 0 * d1) / (d1 + d2)) ((co p1 1 * d2 + co p2 1 * d1) / (d1 + d2)) false).
      assert (Ep : pteq 2 (co P) (fun j => (1 - t) * co p1 j + t * co p2 j)).
      { intros [|[|j]] Hj; [| |lia]; rewrite T1; unfold t, P, pt2; unfold co at 1; cbn [el nth]; field; auto. }
      assert (Cz : forall i, (i < 3)%nat -> (1 - t) * co f i + t * co g i = 0).
      { assert (Z : norm2 3 (fun i => d2 * co f i + d1 * co g i) = 0). { rewrite norm2_plus, !norm2_scal, inner_scal_l, inner_scal_r. fold q. rewrite <- S1, <- S2, Eq. ring. }
        intros i Hi. pose proof (norm2_zero 3 _ Z i Hi) as Zi. cbv beta in Zi. rewrite T1. unfold t. replace (d2 / (d1 + d2) * co f i + d1 / (d1 + d2) * co g i) with ((d2 * co f i + d1 * co g i) / (d1 + d2)) by (field; auto). rewrite Zi. unfold Rdiv. ring. }
      destruct (point_ret (pcorners p) P proper N) as (r & Er). exists r. split; [exact Er|]. split.
      * intros ->. apply point_true in Er. exists (seg_at s t). split; [|exists t; split; auto; intros i Hi; reflexivity]. exists (co P). split; auto. intros i Hi.
        transitivity (placed (pplane p) (fun j => (1 - t) * co p1 j + t * co p2 j) i); [|symmetry; exact (placed_ext 3 (pplane p) _ _ Ep i Hi)]. rewrite placed_comb by ring. unfold seg_at. rewrite (P1 i Hi), (P2 i Hi). specialize (Cz i Hi). lra.
      * intros (y & (u & U & Y) & (t' & Ht & Yt)). destruct (Meet t' u) as [Eu Z]; [intros i Hi; rewrite <- (Yt i Hi), (Y i Hi); reflexivity|]. destruct (Zero t' Z) as [Z1 Z2]. rewrite Eq in Z1, Z2.
        assert (X : (1 - t') * d1 - t' * d2 = 0).
        { assert (K1 : d1 * ((1 - t') * d1 - t' * d2) = 0) by (rewrite <- Z1; ring). assert (K2 : d2 * ((1 - t') * d1 - t' * d2) = 0) by (rewrite <- Ropp_0, <- Z2; ring).
          assert (K : (d1 + d2) * ((1 - t') * d1 - t' * d2) = 0) by lra. apply Rmult_integral in K. destruct K; [easy|auto]. }
        assert (Et : t' = t). { unfold t. apply (Rmult_eq_reg_r (d1 + d2)); auto. replace (d1 / (d1 + d2) * (d1 + d2)) with d1 by (field; auto). lra. }
        assert (I : interior (pcorners p) (co P)). { apply (interior_eq _ u); auto. intros j Hj. rewrite (Eu j Hj), (Ep j Hj), Et. reflexivity. }
        apply (point_interior (pcorners p) P proper) in I. rewrite I in Er. now injection Er.
Qed.
End Seg.
