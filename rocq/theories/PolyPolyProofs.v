(** Two polygons in space: the planes, in exact arithmetic. *)
From Coq Require Import Reals List Bool Lra Lia Psatz Classical.
From Flocq Require Import Core.Raux.
From Verif Require Import Base Scalar ConstModel VecModel RotModel QuatModel VecSpec RSpec RotSpec RLib MatLib VecProofs VecProofs2 VecProofs4 ConstProofs ShapeSpec ShapeModel IntersectModel ShapeProofs ShapeProofs2 ShapeProofs3 BallProofs MotionProofs2 PolyModel PolySpec PolyProofs PolyIntersectModel EvenOddSpec EvenOddProofs RegionSpec RegionProofs PolyShapeProofs PolyShapeProofs2 SpaceSpec PolySpaceProofs PolySpaceProofs2 PolyPolyModel.
Import ListNotations.
Open Scope R_scope.
#[local] Existing Instance Rnum | 0.
#[local] Existing Instance eps0.

(** * Orthonormal pairs *)
Section Pair.
Variables a b : nat -> R.
Hypothesis A : norm2 3 a = 1.
Hypothesis B : norm2 3 b = 1.
Hypothesis AB : inner 3 a b = 0.
Lemma comb_inner x y z w : inner 3 (fun i => x * a i + y * b i) (fun i => z * a i + w * b i) = x * z + y * w.
Proof. rewrite inner_plus_l, !inner_scal_l, !inner_plus_r, !inner_scal_r, (inner_comm 3 b a), AB. fold (norm2 3 a) (norm2 3 b). rewrite A, B. ring. Qed.
Lemma comb_norm x y : norm2 3 (fun i => x * a i + y * b i) = x * x + y * y.
Proof. apply comb_inner. Qed.
Lemma normal_right u v : inner 3 a (cross_coord a b) = 0 /\ inner 3 b (cross_coord a b) = 0 /\ inner 3 (cross_coord a b) (cross_coord u v) = inner 3 a u * inner 3 b v - inner 3 a v * inner 3 b u.
Proof. unfold inner. rewrite !sum3. cbn [cross_coord]. repeat split; ring. Qed.
Lemma normal_one : norm2 3 (cross_coord a b) = 1.
Proof. destruct (normal_right a b) as (_ & _ & E). unfold norm2 in *. rewrite E, A, B, (inner_comm 3 b a), AB. ring. Qed.
(** What is left of x without its part along a and b. *)
Lemma parseval x : norm2 3 x = inner 3 a x * inner 3 a x + inner 3 b x * inner 3 b x + inner 3 (cross_coord a b) x * inner 3 (cross_coord a b) x.
Proof.
  set (r := fun i => x i - (inner 3 a x * a i + inner 3 b x * b i)). destruct (normal_right a b) as (N0 & N1 & _).
  assert (R0 : inner 3 a r = 0). { unfold r. rewrite inner_minus_r, inner_plus_r, !inner_scal_r, AB. fold (norm2 3 a). rewrite A. ring. }
  assert (R1 : inner 3 b r = 0). { unfold r. rewrite inner_minus_r, inner_plus_r, !inner_scal_r, (inner_comm 3 b a), AB. fold (norm2 3 b). rewrite B. ring. }
  pose proof (perp_parallel a b (cross_coord a b) r A B AB N0 N1 R0 R1) as P. rewrite normal_one in P.
  assert (Nr : norm2 3 r = norm2 3 x - inner 3 a x * inner 3 a x - inner 3 b x * inner 3 b x).
  { unfold r. rewrite norm2_minus, comb_norm, inner_plus_r, !inner_scal_r, (inner_comm 3 x a), (inner_comm 3 x b). ring. }
  assert (Nx : inner 3 (cross_coord a b) r = inner 3 (cross_coord a b) x).
  { unfold r. rewrite inner_minus_r, inner_plus_r, !inner_scal_r, (inner_comm 3 (cross_coord a b) a), (inner_comm 3 (cross_coord a b) b), N0, N1. ring. }
  rewrite Nx in P. lra.
Qed.
Lemma in_pair x : inner 3 (cross_coord a b) x = 0 -> forall i, (i < 3)%nat -> x i = inner 3 a x * a i + inner 3 b x * b i.
Proof.
  intros Z. set (r := fun i => x i - (inner 3 a x * a i + inner 3 b x * b i)).
  assert (Nr : norm2 3 r = 0).
  { unfold r. rewrite norm2_minus, comb_norm, inner_plus_r, !inner_scal_r, (inner_comm 3 x a), (inner_comm 3 x b), (parseval x), Z. ring. }
  intros i Hi. pose proof (norm2_zero 3 r Nr i Hi) as E. unfold r in E. lra.
Qed.
End Pair.

(** * Two planes *)
Section Planes.
Variables p1 p2 : polygon R.
Notation o1 := (pplane p1).
Notation o2 := (pplane p2).
Hypothesis O1 : pg_ok 3 p1.
Hypothesis O2 : pg_ok 3 p2.
Hypothesis S1 : spans_plane p1.
Hypothesis S2 : spans_plane p2.
Notation a0 := (co (pax0 o1)).
Notation a1 := (co (pax1 o1)).
Notation b0 := (co (pax0 o2)).
Notation b1 := (co (pax1 o2)).
Lemma frame1 : norm2 3 a0 = 1 /\ norm2 3 a1 = 1 /\ inner 3 a0 a1 = 0 /\ valid (porigin o1) = true.
Proof. destruct O1 as [(F1 & F2 & F3 & F4) _]. destruct S1 as [V0 V1]. repeat split; auto; now apply F4. Qed.
Lemma frame2 : norm2 3 b0 = 1 /\ norm2 3 b1 = 1 /\ inner 3 b0 b1 = 0 /\ valid (porigin o2) = true.
Proof. destruct O2 as [(F1 & F2 & F3 & F4) _]. destruct S2 as [V0 V1]. repeat split; auto; now apply F4. Qed.
Lemma tilt_det : tilt p1 p2 = inner 3 b0 a0 * inner 3 b1 a1 - inner 3 b1 a0 * inner 3 b0 a1.
Proof.
  unfold tilt, normal. destruct frame1 as (A & B & AB & _). destruct (normal_right a0 a1 b0 b1) as (_ & _ & ->).
  rewrite (inner_comm 3 b0 a0), (inner_comm 3 b1 a1), (inner_comm 3 b1 a0), (inner_comm 3 b0 a1). ring.
Qed.
Lemma proj_co (x : coords R) i : (i < 3)%nat -> co (proj_axis 3 o2 x) i = inner 3 b0 (co x) * b0 i + inner 3 b1 (co x) * b1 i.
Proof.
  intros Hi. destruct S2 as [V0 V1]. unfold proj_axis. rewrite V1, add_co, !scale_co, !(dot_inner 3) by auto. ring.
Qed.
Lemma proj_norm (x : coords R) : norm2 3 (co (proj_axis 3 o2 x)) = inner 3 b0 (co x) * inner 3 b0 (co x) + inner 3 b1 (co x) * inner 3 b1 (co x).
Proof. destruct frame2 as (A & B & AB & _). rewrite (norm2_ext 3 _ _ (proj_co x)). now apply comb_norm. Qed.
Lemma proj_inner (x y : coords R) : inner 3 (co (proj_axis 3 o2 x)) (co (proj_axis 3 o2 y)) = inner 3 b0 (co x) * inner 3 b0 (co y) + inner 3 b1 (co x) * inner 3 b1 (co y).
Proof. destruct frame2 as (A & B & AB & _). rewrite (inner_ext 3 _ _ _ _ (proj_co x) (proj_co y)). now apply comb_inner. Qed.

(** The second direction is left over exactly when the planes are not at right angles. *)
Lemma rest_norm : let c0 := co (proj_axis 3 o2 (pax0 o1)) in let c1 := co (proj_axis 3 o2 (pax1 o1)) in
  norm2 3 c0 <> 0 -> norm2 3 (fun i => c1 i - c0 i * (inner 3 c0 c1 / norm2 3 c0)) = tilt p1 p2 * tilt p1 p2 / norm2 3 c0.
Proof.
  intros c0 c1 N. assert (E : forall i, (i < 3)%nat -> c1 i - c0 i * (inner 3 c0 c1 / norm2 3 c0) = c1 i - inner 3 c0 c1 / norm2 3 c0 * c0 i) by (intros; ring).
  rewrite (norm2_ext 3 _ _ E), norm2_minus, norm2_scal, inner_scal_r, (inner_comm 3 c1 c0), tilt_det. unfold c0, c1 in *. rewrite !proj_norm, proj_inner in *.
  set (x := inner 3 b0 a0) in *. set (y := inner 3 b1 a0) in *. set (z := inner 3 b0 a1) in *. set (w := inner 3 b1 a1) in *. field. exact N.
Qed.
Lemma basis_two : tilt p1 p2 <> 0 -> exists b s, common_basis 3 o1 o2 = (2%nat, b, s).
Proof.
  intros T. destruct S1 as [V0 V1]. unfold common_basis. rewrite V1. set (c0 := proj_axis 3 o2 (pax0 o1)). set (c1 := proj_axis 3 o2 (pax1 o1)).
  assert (N : 0 < norm2 3 (co c0)).
  { destruct (norm2_nonneg 3 (co c0)) as [H|H]; auto. exfalso. apply T. rewrite tilt_det. unfold c0 in H. rewrite proj_norm in H.
    destruct (two_sq (inner 3 b0 a0) (inner 3 b1 a0) ltac:(lra)) as [-> ->]. ring. }
  rewrite (sqr_mag_norm2 eps0 3 c0). cbn [nltb nmul neps Rnum]. unfold epsilon, eps0. rewrite !Rmult_0_l. rewrite (Rlt_bool_true 0 (norm2 3 (co c0))) by lra.
  rewrite (sqr_mag_norm2 eps0 3). rewrite Rlt_bool_true; [eauto|].
  rewrite (norm2_ext 3 _ (fun i => co c1 i - co c0 i * (inner 3 (co c0) (co c1) / norm2 3 (co c0)))).
  - unfold c0, c1. rewrite rest_norm by (fold c0; lra). apply Rmult_lt_0_compat; [|now apply Rinv_0_lt_compat]. assert (X := Rsqr_pos_lt _ T). exact X.
  - intros i Hi. rewrite sub_co, scale_co, (dot_inner 3) by auto. reflexivity.
Qed.
(** Planes at right angles: the common direction. *)
Lemma basis_one : tilt p1 p2 = 0 -> exists b s, common_basis 3 o1 o2 = (1%nat, b, s) /\ 0 < s /\ norm2 3 (co b) = s /\
  (forall i, (i < 3)%nat -> co b i = inner 3 b0 (co b) * b0 i + inner 3 b1 (co b) * b1 i) /\ (forall i, (i < 3)%nat -> co b i = inner 3 a0 (co b) * a0 i + inner 3 a1 (co b) * a1 i).
Proof.
  intros T. destruct S1 as [V0 V1]. destruct frame1 as (A & B & AB & _). destruct frame2 as (A' & B' & AB' & _).
  assert (Pl : forall x : coords R, inner 3 a0 (co x) = 0 \/ inner 3 a1 (co x) = 0 -> True) by auto. clear Pl.
  assert (In2 : forall x, forall i, (i < 3)%nat -> co (proj_axis 3 o2 x) i = inner 3 b0 (co (proj_axis 3 o2 x)) * b0 i + inner 3 b1 (co (proj_axis 3 o2 x)) * b1 i).
  { intros x. apply (in_pair b0 b1 A' B' AB'). transitivity (inner 3 (cross_coord b0 b1) (fun i => inner 3 b0 (co x) * b0 i + inner 3 b1 (co x) * b1 i)); [apply inner_ext; auto; apply proj_co|].
    destruct (normal_right b0 b1 b0 b1) as (N0 & N1 & _). rewrite inner_plus_r, !inner_scal_r, (inner_comm 3 _ b0), (inner_comm 3 _ b1), N0, N1. ring. }
  assert (In1 : forall x : coords R, inner 3 (cross_coord a0 a1) (co x) = 0 -> forall i, (i < 3)%nat -> co (proj_axis 3 o2 x) i = inner 3 a0 (co (proj_axis 3 o2 x)) * a0 i + inner 3 a1 (co (proj_axis 3 o2 x)) * a1 i).
  { intros x X. apply (in_pair a0 a1 A B AB).
    (* x = its part in plane 2 plus a multiple of the normal of plane 2, which is at right angles to that of plane 1 *)
    set (m := cross_coord b0 b1). set (r := fun i => co x i - (inner 3 b0 (co x) * b0 i + inner 3 b1 (co x) * b1 i)).
    assert (Er : forall i, (i < 3)%nat -> r i = inner 3 m (co x) * m i).
    { set (q := fun i => r i - inner 3 m (co x) * m i). destruct (normal_right b0 b1 b0 b1) as (N0 & N1 & _). fold m in N0, N1.
      assert (Q : norm2 3 q = 0).
      { unfold q. rewrite norm2_minus, norm2_scal, inner_scal_r. rewrite (normal_one b0 b1 A' B' AB' : norm2 3 m = 1). unfold r. rewrite norm2_minus, (comb_norm b0 b1 A' B' AB'), inner_minus_l, !inner_plus_l, inner_plus_r, !inner_scal_l, !inner_scal_r, N0, N1, (inner_comm 3 (co x) b0), (inner_comm 3 (co x) b1), (inner_comm 3 (co x) m).
        rewrite (parseval b0 b1 A' B' AB' (co x)). fold m. ring. }
      intros i Hi. pose proof (norm2_zero 3 q Q i Hi) as E. unfold q in E. lra. }
    transitivity (inner 3 (cross_coord a0 a1) (fun i => co x i - inner 3 m (co x) * m i)).
    { apply inner_ext; auto. intros i Hi. rewrite (proj_co x i Hi). specialize (Er i Hi). unfold r in Er. lra. }
    rewrite inner_minus_r, inner_scal_r, X. unfold tilt, normal in T. fold m in T. rewrite T. ring. }
  destruct (normal_right a0 a1 a0 a1) as (N0 & N1 & _).
  unfold common_basis. rewrite V1. set (c0 := proj_axis 3 o2 (pax0 o1)). set (c1 := proj_axis 3 o2 (pax1 o1)).
  rewrite (sqr_mag_norm2 eps0 3 c0). cbn [nltb nmul neps Rnum]. unfold epsilon, eps0. rewrite !Rmult_0_l.
  destruct (norm2_nonneg 3 (co c0)) as [H|H].
  - rewrite (Rlt_bool_true 0 (norm2 3 (co c0))) by lra. rewrite (sqr_mag_norm2 eps0 3). rewrite Rlt_bool_false.
    { exists c0, (norm2 3 (co c0)). repeat split; auto; [apply In2|]. apply In1. now rewrite inner_comm. }
    rewrite (norm2_ext 3 _ (fun i => co c1 i - co c0 i * (inner 3 (co c0) (co c1) / norm2 3 (co c0)))).
    + unfold c0, c1. rewrite rest_norm by (fold c0; lra). rewrite T. unfold Rdiv. rewrite !Rmult_0_l. lra.
    + intros i Hi. rewrite sub_co, scale_co, (dot_inner 3) by auto. reflexivity.
  - rewrite (Rlt_bool_false 0 (norm2 3 (co c0))) by lra. rewrite (sqr_mag_norm2 eps0 3).
    assert (N : 0 < norm2 3 (co c1)).
    { destruct (norm2_nonneg 3 (co c1)) as [K|K]; auto. exfalso. unfold c0 in H. unfold c1 in K. rewrite proj_norm in H, K.
      destruct (two_sq (inner 3 b0 a0) (inner 3 b1 a0) ltac:(lra)) as [E0 E1]. destruct (two_sq (inner 3 b0 a1) (inner 3 b1 a1) ltac:(lra)) as [E2 E3].
      pose proof (perp_parallel b0 b1 a0 a1 A' B' AB' E0 E1 E2 E3) as P. rewrite A, B, AB in P. lra. }
    rewrite (Rlt_bool_true 0 (norm2 3 (co c1))) by lra. exists c1, (norm2 3 (co c1)). repeat split; auto; [apply In2|]. apply In1. now rewrite inner_comm.
Qed.
End Planes.
