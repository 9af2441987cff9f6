(** Two polygons in space: what the tests answer, in exact arithmetic. *)
From Coq Require Import Reals List Bool Lra Lia Psatz Classical.
From Flocq Require Import Core.Raux.
From Verif Require Import Base Scalar ConstModel VecModel RotModel QuatModel VecSpec RSpec RotSpec RLib MatLib VecProofs VecProofs2 VecProofs4 ConstProofs ShapeSpec ShapeModel IntersectModel ShapeProofs ShapeProofs2 ShapeProofs3 BallProofs MotionProofs2 PolyModel PolySpec PolyProofs PolyIntersectModel EvenOddSpec EvenOddProofs RegionSpec RegionProofs PolyShapeProofs PolyShapeProofs2 PolyRbProofs SpaceSpec PolySpaceProofs PolySpaceProofs2 PolyPolyModel PolyPolyProofs.
Import ListNotations.
Open Scope R_scope.
#[local] Existing Instance Rnum | 0.
#[local] Existing Instance eps0.

(** * Planes that are not at right angles *)
Section Slanted.
Variables p1 p2 : polygon R.
Hypothesis O1 : pg_ok 3 p1.
Hypothesis O2 : pg_ok 3 p2.
Hypothesis S1 : spans_plane p1.
Hypothesis S2 : spans_plane p2.
Hypothesis Sl : tilt p1 p2 <> 0.
(** o2's axes in o1's coordinates, and no offset *)
Definition the_data (o1 o2 : porient R) : pmeet R :=
  mkPM zero2 zero2 (pt2 (dot 3 (pax0 o2) (pax0 o1)) (dot 3 (pax0 o2) (pax1 o1)) false) (pt2 (dot 3 (pax1 o2) (pax0 o1)) (dot 3 (pax1 o2) (pax1 o1)) false) zero2 None None.
Lemma zero_off : sqr_mag (T := R) 2 zero2 = 0.
Proof. rewrite (sqr_mag_norm2 eps0 2). unfold norm2, inner, zero2, pt2, co. cbn. ring. Qed.
Lemma slanted_data : orient_orient 3 (pplane p1) (pplane p2) = Ret (Some (2%nat, the_data (pplane p1) (pplane p2))).
Proof.
  destruct (frame1 p1 O1 S1) as (_ & _ & _ & Vo1). destruct (frame1 p2 O2 S2) as (_ & _ & _ & Vo2). destruct S1 as [V0 V1]. destruct S2 as [W0 W1].
  unfold orient_orient. rewrite Vo1, Vo2, V0, W0. cbn [negb orb]. destruct (basis_two p1 p2 O1 O2 S1 S2 Sl) as (b & s & ->).
  unfold meet_plane. rewrite V1, W1. cbn [andb oassert]. rewrite zero_off. cbn [neqb Rnum]. change (n0 (T := R)) with 0. rewrite Req_bool_true by reflexivity. cbn [negb]. reflexivity.
Qed.
Lemma slanted_meet proper : i_pg_pg 3 p1 p2 proper = i_pg2_pg2 (pcorners p1) (carry_over (the_data (pplane p1) (pplane p2)) (pcorners p2)) proper.
Proof. unfold i_pg_pg. rewrite slanted_data. reflexivity. Qed.
Lemma slanted_has proper : pcorners p1 <> [] -> pcorners p2 <> [] -> c_pg_pg 3 p1 p2 proper = c_pg2_pg2 (pcorners p1) (carry_over (the_data (pplane p1) (pplane p2)) (pcorners p2)) proper.
Proof.
  intros N1 N2. unfold c_pg_pg. destruct (pcorners p1) as [|c1 l1]; [congruence|]. destruct (pcorners p2) as [|c2 l2]; [congruence|]. rewrite slanted_data. reflexivity.
Qed.
End Slanted.
Lemma shift_ok n p (v : coords R) : valid v = true -> pg_ok n p -> pg_ok n (pg_shift n p v).
Proof.
  intros V [(F1 & F2 & F3 & F4) Fl]. unfold pg_shift, orient_shift. split; cbn [pplane pcorners].
  - destruct (valid (porigin (pplane p))) eqn:E; [|unfold frame_ok; rewrite E; exact (conj F1 (conj F2 (conj F3 F4)))]. split; [exact F1|]. split; [|split; [exact F3|exact F4]]. intros _. cbn [porigin]. unfold vec_add. cbn [valid]. now rewrite E, V.
  - revert Fl. apply Forall_impl. intros c (A & B & C). rewrite A. split; [cbn [porigin]; unfold vec_add; cbn [valid]; now rewrite A, V|]. split; auto.
Qed.
Lemma shift_axes p (v : coords R) : pax0 (pplane (pg_shift 3 p v)) = pax0 (pplane p) /\ pax1 (pplane (pg_shift 3 p v)) = pax1 (pplane p).
Proof. unfold pg_shift, orient_shift. cbn [pplane]. destruct (valid _); auto. Qed.
Lemma shift_spans p v : spans_plane p -> spans_plane (pg_shift 3 p v).
Proof. unfold spans_plane. destruct (shift_axes p v) as [-> ->]. auto. Qed.
Lemma shift_tilt p1 p2 v : tilt p1 (pg_shift 3 p2 v) = tilt p1 p2.
Proof. unfold tilt, normal. destruct (shift_axes p2 v) as [-> ->]. reflexivity. Qed.
Lemma shift_data p1 p2 v : the_data (pplane p1) (pplane (pg_shift 3 p2 v)) = the_data (pplane p1) (pplane p2).
Proof. unfold the_data. destruct (shift_axes p2 v) as [-> ->]. reflexivity. Qed.
(** Where the second polygon is makes no difference. *)
Lemma ignores_place p1 p2 (v : coords R) proper : pg_ok 3 p1 -> pg_ok 3 p2 -> spans_plane p1 -> spans_plane p2 -> tilt p1 p2 <> 0 -> valid v = true ->
  i_pg_pg 3 p1 (pg_shift 3 p2 v) proper = i_pg_pg 3 p1 p2 proper /\ c_pg_pg 3 p1 (pg_shift 3 p2 v) proper = c_pg_pg 3 p1 p2 proper.
Proof.
  intros O1 O2 S1 S2 Sl V. assert (O3 := shift_ok 3 p2 v V O2). assert (S3 := shift_spans p2 v S2). assert (Sl3 : tilt p1 (pg_shift 3 p2 v) <> 0) by now rewrite shift_tilt.
  split.
  - rewrite !slanted_meet by auto. now rewrite shift_data.
  - unfold c_pg_pg. rewrite !slanted_data by auto. rewrite shift_data. reflexivity.
Qed.

(** * One plane, one origin *)
Section Same.
Variables p1 p2 : polygon R.
Notation o1 := (pplane p1).
Notation o2 := (pplane p2).
Hypothesis O1 : pg_ok 3 p1.
Hypothesis O2 : pg_ok 3 p2.
Hypothesis S1 : spans_plane p1.
Hypothesis S2 : spans_plane p2.
Hypothesis Og : pteq 3 (co (porigin o1)) (co (porigin o2)).
Hypothesis Pl : forall u, in_plane 3 o1 (placed o2 u).
Let d := the_data o1 o2.
Notation a0 := (co (pax0 o1)).
Notation a1 := (co (pax1 o1)).
Notation b0 := (co (pax0 o2)).
Notation b1 := (co (pax1 o2)).
Lemma axis_in k : (k < 2)%nat -> let x := match k with O => b0 | _ => b1 end in forall i, (i < 3)%nat -> x i = inner 3 x a0 * a0 i + inner 3 x a1 * a1 i.
Proof.
  intros Hk x. destruct (frame1 p1 O1 S1) as (A & B & AB & _). destruct S1 as [V0 V1]. destruct S2 as [W0 W1].
  destruct (Pl (fun j => if Nat.eqb j k then 1 else 0)) as (u & v & E).
  assert (X : forall i, (i < 3)%nat -> x i = u * a0 i + v * a1 i).
  { intros i Hi. specialize (E i Hi). unfold placed in E. rewrite W0, W1 in E. specialize (Og i Hi). unfold x. destruct k as [|[|k]]; [| |lia]; cbn [Nat.eqb] in E; lra. }
  assert (U : inner 3 x a0 = u). { transitivity (inner 3 (fun i => u * a0 i + v * a1 i) a0); [now apply inner_ext|]. rewrite inner_plus_l, !inner_scal_l, (inner_comm 3 a1 a0), AB. fold (norm2 3 a0). rewrite A. ring. }
  assert (Vv : inner 3 x a1 = v). { transitivity (inner 3 (fun i => u * a0 i + v * a1 i) a1); [now apply inner_ext|]. rewrite inner_plus_l, !inner_scal_l, AB. fold (norm2 3 a1). rewrite B. ring. }
  intros i Hi. rewrite (X i Hi), U, Vv. reflexivity.
Qed.
Lemma axis0_in i : (i < 3)%nat -> b0 i = inner 3 b0 a0 * a0 i + inner 3 b0 a1 * a1 i.
Proof. exact (axis_in 0 ltac:(lia) i). Qed.
Lemma axis1_in i : (i < 3)%nat -> b1 i = inner 3 b1 a0 * a0 i + inner 3 b1 a1 * a1 i.
Proof. exact (axis_in 1 ltac:(lia) i). Qed.
Lemma same_tilt : tilt p1 p2 <> 0.
Proof.
  rewrite (tilt_det p1 p2 O1 S1). destruct (frame1 p1 O1 S1) as (A & B & AB & _). destruct (frame1 p2 O2 S2) as (A' & B' & AB' & _).
  pose proof axis0_in as X. pose proof axis1_in as Y.
  set (x := inner 3 b0 a0) in *. set (y := inner 3 b0 a1) in *. set (z := inner 3 b1 a0) in *. set (w := inner 3 b1 a1) in *.
  assert (N0 : x * x + y * y = 1). { rewrite <- A', (norm2_ext 3 _ _ X). symmetry. now apply comb_norm. }
  assert (N1 : z * z + w * w = 1). { rewrite <- B', (norm2_ext 3 _ _ Y). symmetry. now apply comb_norm. }
  assert (N2 : x * z + y * w = 0). { rewrite <- AB', (inner_ext 3 _ _ _ _ X Y). symmetry. now apply comb_inner. }
  intros E. assert (F : (x * x + y * y) * (z * z + w * w) = (x * z + y * w) * (x * z + y * w) + (x * w - z * y) * (x * w - z * y)) by ring. rewrite N0, N1, N2, E in F. lra.
Qed.
(** The second polygon's coordinates in those of the first. *)
Definition over (u : pt) : pt := fun k => match k with
  | O => u 0%nat * inner 3 b0 a0 + u 1%nat * inner 3 b1 a0
  | _ => u 0%nat * inner 3 b0 a1 + u 1%nat * inner 3 b1 a1 end.
Lemma over_placed u : pteq 3 (placed o1 (over u)) (placed o2 u).
Proof.
  intros i Hi. destruct S1 as [V0 V1]. destruct S2 as [W0 W1]. unfold placed, over. rewrite V0, V1, W0, W1. rewrite (Og i Hi).
  pose proof (axis0_in i Hi) as X. pose proof (axis1_in i Hi) as Y. rewrite X, Y. ring.
Qed.
Lemma over_co c : pteq 2 (co (hd (coords_default 2) (carry_over d [c]))) (over (co c)).
Proof.
  intros i Hi. unfold carry_over, d, the_data. rewrite !(dot_inner 3). unfold over.
  generalize (inner 3 b0 a0) (inner 3 b0 a1) (inner 3 b1 a0) (inner 3 b1 a1). intros x y z w. unfold zero2, pt2. cbn [map hd m_off m_v1 m_v2].
  destruct i as [|[|i]]; [| |lia]; unfold co, at_, get, vec_add; cbn; unfold at_, get; change (n0 (T := R)) with 0; ring.
Qed.
Definition Gov (c : coords R) : coords R := hd (coords_default 2) (carry_over d [c]).
Lemma carry_map l : carry_over d l = map Gov l.
Proof. reflexivity. Qed.
Lemma ov_inv : let x := inner 3 b0 a0 in let y := inner 3 b0 a1 in let z := inner 3 b1 a0 in let w := inner 3 b1 a1 in x * x + y * y = 1 /\ z * z + w * w = 1 /\ x * z + y * w = 0.
Proof.
  intros x y z w. destruct (frame1 p1 O1 S1) as (A & B & AB & _). destruct (frame1 p2 O2 S2) as (A' & B' & AB' & _).
  pose proof axis0_in as X. pose proof axis1_in as Y. fold x y in X. fold z w in Y. repeat split.
  - rewrite <- A', (norm2_ext 3 _ _ X). symmetry. now apply comb_norm.
  - rewrite <- B', (norm2_ext 3 _ _ Y). symmetry. now apply comb_norm.
  - rewrite <- AB', (inner_ext 3 _ _ _ _ X Y). symmetry. now apply comb_inner.
Qed.
Lemma over_back u : pteq 2 u (fun k => match k with O => inner 3 b0 a0 * over u 0%nat + inner 3 b0 a1 * over u 1%nat | _ => inner 3 b1 a0 * over u 0%nat + inner 3 b1 a1 * over u 1%nat end).
Proof.
  destruct ov_inv as (E1 & E2 & E3). intros [|[|k]] Hk; [| |lia]; unfold over.
  - transitivity (u 0%nat * (inner 3 b0 a0 * inner 3 b0 a0 + inner 3 b0 a1 * inner 3 b0 a1) + u 1%nat * (inner 3 b0 a0 * inner 3 b1 a0 + inner 3 b0 a1 * inner 3 b1 a1)); [rewrite E1, E3; ring|ring].
  - transitivity (u 0%nat * (inner 3 b0 a0 * inner 3 b1 a0 + inner 3 b0 a1 * inner 3 b1 a1) + u 1%nat * (inner 3 b1 a0 * inner 3 b1 a0 + inner 3 b1 a1 * inner 3 b1 a1)); [rewrite E2, E3; ring|ring].
Qed.
Lemma over_inj x y : pteq 2 (over x) (over y) -> pteq 2 x y.
Proof. intros E k Hk. rewrite (over_back x k Hk), (over_back y k Hk). rewrite (E 0%nat), (E 1%nat) by lia. reflexivity. Qed.
Lemma over_ext x y : pteq 2 x y -> pteq 2 (over x) (over y).
Proof. intros E k Hk. unfold over. now rewrite (E 0%nat), (E 1%nat) by lia. Qed.
Lemma over_onto u : exists v, pteq 2 u (over v).
Proof.
  destruct ov_inv as (E1 & E2 & E3). set (x := inner 3 b0 a0) in *. set (y := inner 3 b0 a1) in *. set (z := inner 3 b1 a0) in *. set (w := inner 3 b1 a1) in *.
  (* the transpose of an orthogonal matrix *)
  assert (D : (x * w - y * z) * (x * w - y * z) = 1). { transitivity ((x * x + y * y) * (z * z + w * w) - (x * z + y * w) * (x * z + y * w)); [ring|]. rewrite E1, E2, E3. ring. }
  assert (Ww : w = x * (x * w - y * z)). { transitivity (w * (x * x + y * y) - y * (x * z + y * w)); [rewrite E1, E3; ring|ring]. }
  assert (Zz : z = - y * (x * w - y * z)). { transitivity (z * (x * x + y * y) - x * (x * z + y * w)); [rewrite E1, E3; ring|ring]. }
  set (D0 := x * w - y * z) in *.
  assert (F1 : x * x + z * z = 1). { rewrite Zz. transitivity (x * x + y * y * (D0 * D0)); [ring|]. rewrite D. lra. }
  assert (F2 : y * y + w * w = 1). { rewrite Ww. transitivity (y * y + x * x * (D0 * D0)); [ring|]. rewrite D. lra. }
  assert (F3 : x * y + z * w = 0). { rewrite Zz, Ww. transitivity (x * y - x * y * (D0 * D0)); [ring|]. rewrite D. ring. }
  exists (fun k => match k with O => x * u 0%nat + y * u 1%nat | _ => z * u 0%nat + w * u 1%nat end).
  intros [|[|k]] Hk; [| |lia]; unfold over; fold x y z w.
  - transitivity (u 0%nat * (x * x + z * z) + u 1%nat * (x * y + z * w)); [rewrite F1, F3; ring|ring].
  - transitivity (u 0%nat * (x * y + z * w) + u 1%nat * (y * y + w * w)); [rewrite F2, F3; ring|ring].
Qed.
Lemma over_interior l x : interior (carry_over d l) (over x) <-> interior l x.
Proof.
  rewrite carry_map. apply (interior_affine over over); auto using over_ext, over_inj, over_onto.
  - intros p e t [|[|k]] Hk; [| |lia]; unfold over; ring.
  - intros a b s [|[|k]] Hk; [| |lia]; unfold over; ring.
  - intros e E [|[|k]] Hk; [| |lia]; unfold over; rewrite (E 0%nat), (E 1%nat) by lia; ring.
  - intros c. apply over_co.
Qed.
(** A polygon whose first corner is inside the other. *)
Lemma same_meet c1 l1 c2 l2 proper : pcorners p1 = c1 :: l1 -> pcorners p2 = c2 :: l2 ->
  (exists r, i_pg_pg 3 p1 p2 proper = Ret r) /\
  (space_interior 3 p1 (placed o2 (co c2)) \/ space_interior 3 p2 (placed o1 (co c1)) -> i_pg_pg 3 p1 p2 proper = Ret true).
Proof.
  intros E1 E2. rewrite (slanted_meet p1 p2 O1 O2 S1 S2 same_tilt). rewrite E1, E2. fold d. rewrite carry_map. cbn [map].
  assert (Z : forall w : pt, (forall i, (i < 3)%nat -> w i = 0) -> forall a : pt, inner 3 a w = 0). { intros w Hw a. unfold inner. rewrite sum3. rewrite !Hw by lia. ring. }
  assert (Inj : forall u v, pteq 3 (placed o1 u) (placed o1 v) -> pteq 2 u v).
  { intros u v E. destruct S1 as [V0 V1]. apply (placed_inj o1 u v (proj1 O1) V0 V1 (fun _ => 0)); try (apply Z; auto). intros i Hi. rewrite (E i Hi). ring. }
  destruct (point_ret (c1 :: l1) (Gov c2) proper ltac:(discriminate)) as (a & Ea). destruct (point_ret (Gov c2 :: map Gov l2) c1 proper ltac:(discriminate)) as (b & Eb).
  unfold i_pg2_pg2. unfold point in *. rewrite Ea, Eb. cbn [obind]. split; [destruct (pg2_pg2_loop _ _ _ _ _ _), a; eauto|]. destruct (pg2_pg2_loop _ _ _ _ _ _); auto.
  intros [(u & I & P)|(u & I & P)].
  - assert (X : pteq 2 u (co (Gov c2))).
    { intros k Hk. transitivity (over (co c2) k); [|symmetry; exact (over_co c2 k Hk)]. apply Inj; auto. intros i Hi. rewrite <- (P i Hi). now rewrite (over_placed (co c2) i Hi). }
    rewrite E1 in I. apply (interior_eq _ _ _ X) in I. apply (point_interior _ _ proper) in I. unfold point in *. rewrite Ea in I. injection I as ->. reflexivity.
  - assert (X : pteq 2 (over u) (co c1)). { apply Inj. intros i Hi. rewrite (over_placed u i Hi). now rewrite <- (P i Hi). }
    rewrite E2 in I. apply over_interior in I. rewrite carry_map in I. cbn [map] in I. apply (interior_eq _ _ _ X) in I. apply (point_interior _ _ proper) in I. unfold point in *. rewrite Eb in I. injection I as ->. destruct a; reflexivity.
Qed.
End Same.
