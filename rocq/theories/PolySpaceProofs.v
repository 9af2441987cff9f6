(** Polygons in space against balls, boxes, rotated boxes and segments, in exact arithmetic. *)
From Coq Require Import Reals List Bool Lra Lia Psatz Permutation Classical.
From Flocq Require Import Core.Raux.
From Verif Require Import Base Scalar ConstModel VecModel RotModel QuatModel VecSpec RSpec RotSpec RLib MatLib VecProofs VecProofs4 ConstProofs ShapeSpec ShapeModel IntersectModel ShapeProofs ShapeProofs2 ShapeProofs3 BallProofs RotProofs2 RotProofs3 RbProofs RbProofs2 MotionProofs2 PolyModel PolySpec PolyProofs PolyIntersectModel EvenOddSpec EvenOddProofs RegionSpec RegionProofs PolyShapeProofs PolyShapeProofs2 SpaceSpec PropBox PropMotion.
Import ListNotations.
Open Scope R_scope.
#[local] Existing Instance Rnum | 0.
#[local] Existing Instance eps0.

Section Space.
Variable n : nat.
Lemma placed_at o u : pteq n (placed o u) (plane_at o u).
Proof. intros i Hi. unfold placed, plane_at. destruct (valid (pax0 o)), (valid (pax1 o)); ring. Qed.
Lemma placed_ext o u v : pteq 2 u v -> pteq n (placed o u) (placed o v).
Proof. intros E i Hi. unfold placed. rewrite (E 0%nat), (E 1%nat) by lia. reflexivity. Qed.
(** Corners without a coordinate along an axis: neither has the region. *)
Lemma coord_zero l k : (k < 2)%nat -> (forall c, In c l -> co c k = 0) -> forall u, region l u -> u k = 0.
Proof.
  intros Hk C u X. set (d := match k with O => (1, 0) | _ => (0, 1) end : V).
  assert (D : forall x : pt, ldot d x = x k) by (intros x; unfold d, ldot; destruct k as [|[|k]]; cbn; try lia; ring).
  assert (D' : forall x : pt, ldot (- fst d, - snd d) x = - x k) by (intros x; unfold d, ldot; destruct k as [|[|k]]; cbn; try lia; ring).
  pose proof (region_half l d 0 u) as A. pose proof (region_half l (- fst d, - snd d) 0 u) as B. rewrite D in A. rewrite D' in B.
  assert (u k <= 0). { apply A; auto. intros c I. rewrite D, (C c I). lra. }
  assert (- u k <= 0). { apply B; auto. intros c I. rewrite D', (C c I). lra. } lra.
Qed.
Lemma region_flat p u : pg_ok n p -> region (pcorners p) u ->
  (valid (pax0 (pplane p)) = false -> u 0%nat = 0) /\ (valid (pax1 (pplane p)) = false -> u 1%nat = 0).
Proof.
  intros [_ F] X. rewrite Forall_forall in F. split; intros V; apply (coord_zero (pcorners p)); auto; intros c I; destruct (F c I) as (_ & A & B); auto.
Qed.

(** * The part off the plane *)
Lemma offset_spec o (c : coords R) : frame_ok n o -> axes_ok n o -> valid (porigin o) = true ->
  exists off c2, orient_offset n o c = Ret (off, c2) /\ forall u, (valid (pax0 o) = false -> u 0%nat = 0) -> (valid (pax1 o) = false -> u 1%nat = 0) ->
    dist2 n (co c) (placed o u) = norm2 n (co off) + dist2 2 (co c2) u.
Proof.
  intros (F1 & F2 & F3 & F4) (A0 & A1) V. unfold orient_offset. rewrite V. cbn [oassert]. eexists. eexists. split; [reflexivity|]. intros u U0 U1.
  set (o1 := vec_sub n c (porigin o)). set (x := dot n o1 (pax0 o)). set (o2 := vec_sub n o1 (vec_scale n (pax0 o) x)). set (y := dot n o2 (pax1 o)).
  set (a := co (pax0 o)) in *. set (b := co (pax1 o)) in *. set (s := fun i => co c i - co (porigin o) i).
  assert (Ex : x = inner n s a). { unfold x. rewrite (dot_inner n). apply inner_ext; auto. intros i Hi. unfold o1. now rewrite sub_co. }
  assert (Eo2 : forall i, (i < n)%nat -> co o2 i = s i - x * a i). { intros i Hi. unfold o2, o1. rewrite sub_co, scale_co, sub_co by auto. unfold s, a. ring. }
  assert (Ey : y = inner n s b - x * inner n a b).
  { unfold y. rewrite (dot_inner n). transitivity (inner n (fun i => s i - x * a i) b); [apply inner_ext; auto|]. rewrite inner_minus_l, inner_scal_l. reflexivity. }
  rewrite (norm2_ext n _ (fun i => s i - (x * a i + y * b i))). 2:{ intros i Hi. rewrite sub_co, scale_co, Eo2 by auto. unfold b. ring. }
  assert (D2 : dist2 2 (co (pt2 x y false)) u = (x - u 0%nat) * (x - u 0%nat) + (y - u 1%nat) * (y - u 1%nat)). { unfold dist2, norm2, inner, co. cbn. ring. }
  rewrite D2. clear D2. unfold dist2, placed. fold a b.
  assert (Nz : forall w : nat -> R, norm2 n w = 0 -> inner n s w = 0 /\ inner n w a = 0 /\ inner n a w = 0).
  { intros w Z. assert (W : forall i, (i < n)%nat -> w i = 0) by (apply norm2_zero; auto). split; [|split]; unfold inner; apply Rsum_zero; intros i Hi; rewrite (W i Hi); ring. }
  assert (Split : norm2 n (fun i => s i - (x * a i + y * b i)) = norm2 n s - 2 * x * inner n s a - 2 * y * inner n s b + x * x * norm2 n a + 2 * x * y * inner n a b + y * y * norm2 n b).
  { rewrite norm2_minus, inner_plus_r, !inner_scal_r, norm2_plus, !norm2_scal, inner_scal_l, inner_scal_r. ring. }
  rewrite Split. clear Split.
  destruct (valid (pax1 o)) eqn:V1; destruct (valid (pax0 o)) eqn:V0; try (specialize (F1 eq_refl); discriminate).
  - destruct (F4 eq_refl) as [B AB]. specialize (F3 eq_refl). rewrite (norm2_ext n _ (fun i => s i - (u 0%nat * a i + u 1%nat * b i))) by (intros; unfold s; ring).
    rewrite two_axes by auto. rewrite F3, B, AB. rewrite AB in Ey. rewrite Ey, Ex. ring.
  - specialize (F3 eq_refl). rewrite (U1 eq_refl). rewrite (norm2_ext n _ (fun i => s i - u 0%nat * a i)) by (intros; unfold s; ring). rewrite one_axis by auto. rewrite F3. destruct A1 as [Z|B].
    + destruct (Nz b Z) as (Z1 & _ & Z3). rewrite Z, Z1, Z3 in *. rewrite Ey, Ex. ring.
    + rewrite B. rewrite Ex in *. rewrite Ey. ring.
  - rewrite (U0 eq_refl), (U1 eq_refl). rewrite (norm2_ext n _ s) by (intros; unfold s; ring). destruct A0 as [Z0|B0].
    + destruct (Nz a Z0) as (Z1 & _ & Z3). rewrite Z0, Z1 in *. assert (Ab : inner n a b = 0). { assert (W : forall i, (i < n)%nat -> a i = 0) by (apply norm2_zero; auto). unfold inner. apply Rsum_zero. intros i Hi. rewrite (W i Hi). ring. }
      rewrite Ab in *. rewrite Ex in *. destruct A1 as [Z|B]; [destruct (Nz b Z) as (Y1 & _); rewrite Z, Y1 in *; rewrite Ey; ring|]. rewrite B. rewrite Ey. ring.
    + rewrite B0. rewrite Ex in *. destruct A1 as [Z|B]; [destruct (Nz b Z) as (Y1 & _ & Y3); rewrite Z, Y1, Y3 in *; rewrite Ey; ring|]. rewrite B, Ey. ring.
Qed.

(** * Balls *)
Lemma first_origin (p : polygon R) : pg_ok n p -> pcorners p <> [] -> valid (porigin (pplane p)) = true.
Proof. intros [_ F] N. destruct (pcorners p) as [|c l]; [easy|]. inversion F as [|? ? (V & _) _]. exact V. Qed.
Lemma meet_placed p (A : pt -> Prop) (B : pt -> Prop) : pg_ok n p -> (forall x y, pteq n x y -> A x -> A y) ->
  (forall u, (valid (pax0 (pplane p)) = false -> u 0%nat = 0) -> (valid (pax1 (pplane p)) = false -> u 1%nat = 0) -> (A (placed (pplane p) u) <-> B u)) ->
  (meet (space_region n p) A <-> meet (region (pcorners p)) B) /\ (incl (space_region n p) A <-> incl (region (pcorners p)) B).
Proof.
  intros O Ext P. split; split.
  - intros (y & (u & U & E) & Y). exists u. split; auto. destruct (region_flat p u O U). apply P; auto. now apply (Ext y).
  - intros (u & U & Bu). destruct (region_flat p u O U). exists (placed (pplane p) u). split; [exists u; split; auto; intros i Hi; reflexivity|]. now apply P.
  - intros I u U. destruct (region_flat p u O U). apply P; auto. apply I. exists u. split; auto. intros i Hi. reflexivity.
  - intros I y (u & U & E). destruct (region_flat p u O U). apply (Ext (placed (pplane p) u)); [intros i Hi; symmetry; auto|]. apply P; auto.
Qed.
Lemma d2_sym (a b : pt) : dist2 2 a b = dist2 2 b a.
Proof. unfold dist2, norm2, inner. cbn. ring. Qed.
Lemma sqrt_ball (c2 : coords R) d u : 0 <= d -> (in_ball 2 (mkBall c2 (sqrt d)) u <-> dist2 2 (co c2) u <= d) /\ (in_ball_open 2 (mkBall c2 (sqrt d)) u <-> dist2 2 (co c2) u < d).
Proof.
  intros Hd. pose proof (sqrt_pos d). split; [rewrite in_ball_sqr by auto|rewrite in_ball_open_sqr by auto]; cbn [center radius]; rewrite sqrt_sqrt by auto; tauto.
Qed.
Lemma space_ball p b : pg_ok n p -> axes_ok n (pplane p) -> pcorners p <> [] -> 0 <= radius b ->
  exists r, i_pg_ball n p b false = Ret r /\ (r = true <-> meet (space_region n p) (in_ball n b)).
Proof.
  intros O Ax N Hr. pose proof (first_origin p O N) as V. unfold i_pg_ball. destruct (offset_spec (pplane p) (center b) (proj1 O) Ax V) as (off & c2 & E & D).
  destruct (pcorners p) as [|c l] eqn:El; [easy|]. cbv beta iota. rewrite <- El in *. unfold point in *. rewrite E. cbn [obind]. rewrite sqr_mag_norm2. cbn [nsub nmul nsqrt Rnum]. set (d := radius b * radius b - norm2 n (co off)).
  assert (Eq : (less_ d n0 false = false <-> 0 <= d)). { rewrite (less_false 0). unfold n0. cbn [nofZ Rnum]. cbn. lra. }
  assert (M : forall u, (valid (pax0 (pplane p)) = false -> u 0%nat = 0) -> (valid (pax1 (pplane p)) = false -> u 1%nat = 0) -> (in_ball n b (placed (pplane p) u) <-> dist2 2 (co c2) u <= d)).
  { intros u U0 U1. rewrite in_ball_sqr by auto. rewrite (D u U0 U1). unfold d. lra. }
  destruct (meet_placed p (in_ball n b) (fun u => dist2 2 (co c2) u <= d) O (fun x y Exy => respects_ball n b x y Exy) M) as [Me _]. setoid_rewrite Me.
  destruct (less_ d n0 false) eqn:L.
  - exists false. split; auto. split; [discriminate|]. intros (u & _ & U). assert (d < 0) by (apply Rnot_le_lt; intros X; apply Eq in X; discriminate).
    pose proof (norm2_nonneg 2 (fun i => co c2 i - u i)). unfold dist2 in U. lra.
  - assert (Hd : 0 <= d) by (apply Eq; reflexivity). destruct (pg2_ball (pcorners p) (mkBall c2 (sqrt d)) N (sqrt_pos d)) as (r & Er & Q). exists r. split; auto. rewrite Q.
    split; intros (u & U & B); exists u; (split; [auto|]); apply (sqrt_ball c2 d u Hd); auto.
Qed.
Lemma space_ball_proper p b : pg_ok n p -> axes_ok n (pplane p) -> pcorners p <> [] -> 0 <= radius b ->
  exists r, i_pg_ball n p b true = Ret r /\ (r = true <-> meet (space_region n p) (in_ball_open n b)).
Proof.
  intros O Ax N Hr. pose proof (first_origin p O N) as V. unfold i_pg_ball. destruct (offset_spec (pplane p) (center b) (proj1 O) Ax V) as (off & c2 & E & D).
  destruct (pcorners p) as [|c l] eqn:El; [easy|]. cbv beta iota. rewrite <- El in *. unfold point in *. rewrite E. cbn [obind]. rewrite sqr_mag_norm2. cbn [nsub nmul nsqrt Rnum]. set (d := radius b * radius b - norm2 n (co off)).
  assert (Eq : (less_ d n0 true = false <-> 0 < d)). { rewrite (less_proper 0). unfold n0. cbn [nofZ Rnum]. cbn. lra. }
  assert (M : forall u, (valid (pax0 (pplane p)) = false -> u 0%nat = 0) -> (valid (pax1 (pplane p)) = false -> u 1%nat = 0) -> (in_ball_open n b (placed (pplane p) u) <-> dist2 2 (co c2) u < d)).
  { intros u U0 U1. rewrite in_ball_open_sqr by auto. rewrite (D u U0 U1). unfold d. lra. }
  destruct (meet_placed p (in_ball_open n b) (fun u => dist2 2 (co c2) u < d) O (fun x y Exy => respects_ball_open n b x y Exy) M) as [Me _]. setoid_rewrite Me.
  destruct (less_ d n0 true) eqn:L.
  - exists false. split; auto. split; [discriminate|]. intros (u & _ & U). assert (d <= 0) by (apply Rnot_lt_le; intros X; apply Eq in X; discriminate).
    pose proof (norm2_nonneg 2 (fun i => co c2 i - u i)). unfold dist2 in U. lra.
  - assert (Hd : 0 < d) by (apply Eq; reflexivity). destruct (pg2_ball_proper (pcorners p) (mkBall c2 (sqrt d)) N (sqrt_lt_R0 d Hd)) as (r & Er & Q). exists r. split; auto. rewrite Q.
    split; intros (u & U & B); exists u; (split; [auto|]); apply (sqrt_ball c2 d u ltac:(lra)); auto.
Qed.
Lemma space_in_ball p b proper : pg_ok n p -> axes_ok n (pplane p) -> pcorners p <> [] -> 0 <= radius b ->
  exists r, c_ball_pg n b p proper = Ret r /\ (r = true <-> incl (space_region n p) (if proper then in_ball_open n b else in_ball n b)).
Proof.
  intros O Ax N Hr. pose proof (first_origin p O N) as V. unfold c_ball_pg. destruct (offset_spec (pplane p) (center b) (proj1 O) Ax V) as (off & c2 & E & D).
  destruct (pcorners p) as [|c l] eqn:El; [easy|]. cbv beta iota. rewrite <- El in *. unfold point in *. rewrite E. cbn [obind]. rewrite sqr_mag_norm2. cbn [nsub nmul nsqrt Rnum]. set (d := radius b * radius b - norm2 n (co off)).
  set (B := fun u : pt => if proper then dist2 2 (co c2) u < d else dist2 2 (co c2) u <= d).
  assert (M : forall u, (valid (pax0 (pplane p)) = false -> u 0%nat = 0) -> (valid (pax1 (pplane p)) = false -> u 1%nat = 0) -> ((if proper then in_ball_open n b else in_ball n b) (placed (pplane p) u) <-> B u)).
  { intros u U0 U1. unfold B. destruct proper; [rewrite in_ball_open_sqr by auto|rewrite in_ball_sqr by auto]; rewrite (D u U0 U1); unfold d; lra. }
  assert (Ext : forall x y, pteq n x y -> (if proper then in_ball_open n b else in_ball n b) x -> (if proper then in_ball_open n b else in_ball n b) y).
  { intros x y Exy. destruct proper; [now apply respects_ball_open|now apply respects_ball]. }
  destruct (meet_placed p _ B O Ext M) as [_ Me]. setoid_rewrite Me.
  assert (Rc : region (pcorners p) (co c)) by (left; apply corner_region; rewrite El; cbn; auto).
  destruct (less_ d n0 proper) eqn:L.
  - exists false. split; auto. split; [discriminate|]. intros I. specialize (I (co c) Rc). unfold B in I. pose proof (norm2_nonneg 2 (fun i => co c2 i - co c i)) as P. unfold dist2 in I. destruct proper.
    + assert (less_ d n0 true = false); [|congruence]. apply (less_proper 0). unfold n0. cbn [nofZ Rnum]. cbn. lra.
    + assert (less_ d n0 false = false); [|congruence]. apply (less_false 0). unfold n0. cbn [nofZ Rnum]. cbn. lra.
  - eexists. split; [reflexivity|]. rewrite forallb_forall.
    assert (Hd : 0 <= d). { destruct proper; [apply (less_proper 0) in L|apply (less_false 0) in L]; unfold n0 in L; cbn in L; lra. }
    assert (Q : forall q, negb (less_ d (squared_distance 2 c2 q) proper) = true <-> B (co q)).
    { intros q. rewrite negb_true_iff. unfold B. destruct proper; [rewrite (less_proper 0), (sqd0 2); tauto|rewrite (less_false 0), (sqd0 2); lra]. }
    pose proof (ball_has_pg2 (pcorners p) (mkBall c2 (sqrt d)) (sqrt_pos d)) as [H1 H2]. unfold c_ball_pg2 in H1, H2. rewrite forallb_forall in H1, H2.
    assert (K : (forall q, In q (pcorners p) -> B (co q)) <-> incl (region (pcorners p)) B).
    { split; [|intros I q Iq; apply I; left; now apply corner_region]. intros C u U. unfold B in *. destruct proper.
      - apply (sqrt_ball c2 d u Hd). apply H2; auto. intros q Iq. rewrite negb_true_iff, (greater_proper 0), (sqd0 2). cbn [center radius nmul Rnum]. rewrite sqrt_sqrt by auto. now apply C.
      - apply (sqrt_ball c2 d u Hd). apply H1; auto. intros q Iq. rewrite negb_true_iff, (greater_false 0), (sqd0 2). cbn [center radius nmul Rnum]. rewrite sqrt_sqrt by auto. specialize (C q Iq). lra. }
    rewrite <- K. split; intros C q Iq; apply Q; auto.
Qed.

(** * Boxes *)
Lemma all_ret_iff {A} (f : A -> outcome bool) (P : A -> Prop) l : (forall x, In x l -> exists b, f x = Ret b /\ (b = true <-> P x)) ->
  exists r, all_ret f l = Ret r /\ (r = true <-> forall x, In x l -> P x).
Proof.
  induction l as [|x l IH]; intros F; cbn [all_ret]; [exists true; split; auto; split; auto; intros _ ? []|].
  destruct (F x (or_introl eq_refl)) as (b & -> & B). cbn [obind]. destruct IH as (r & E & Q); [intros y I; apply F; now right|]. destruct b.
  - exists r. split; auto. rewrite Q. split; [intros C y [<-|I]; [now apply B|auto]|intros C y I; apply C; now right].
  - exists false. split; auto. split; [discriminate|]. intros C. apply B. apply C. now left.
Qed.
(** Coordinate i of the placed point is linear in u. *)
Lemma placed_ldot o u i : placed o u i = co (porigin o) i + ldot ((if valid (pax0 o) then co (pax0 o) i else 0), (if valid (pax1 o) then co (pax1 o) i else 0)) u.
Proof. unfold placed, ldot. cbn [fst snd]. destruct (valid (pax0 o)), (valid (pax1 o)); ring. Qed.
Lemma region_box l o b : (forall c, In c l -> in_box n b (placed o (co c))) <-> incl (region l) (fun u => in_box n b (placed o u)).
Proof.
  split; [|intros I c Ic; apply I; left; now apply corner_region]. intros C u U i Hi. rewrite placed_ldot.
  set (d := ((if valid (pax0 o) then co (pax0 o) i else 0), (if valid (pax1 o) then co (pax1 o) i else 0))) in *.
  assert (A : ldot d u <= co (high b) i - co (porigin o) i). { apply (region_half l); auto. intros c Ic. specialize (C c Ic i Hi). rewrite placed_ldot in C. fold d in C. lra. }
  assert (B : ldot (- fst d, - snd d) u <= co (porigin o) i - co (low b) i). { apply (region_half l); auto. intros c Ic. specialize (C c Ic i Hi). rewrite placed_ldot in C. fold d in C. unfold ldot in *. cbn [fst snd] in *. lra. }
  unfold ldot in *. cbn [fst snd] in *. lra.
Qed.
Lemma region_box_open l o b : (forall c, In c l -> in_box_open n b (placed o (co c))) <-> incl (region l) (fun u => in_box_open n b (placed o u)).
Proof.
  split; [|intros I c Ic; apply I; left; now apply corner_region]. intros C u U i Hi. rewrite placed_ldot.
  set (d := ((if valid (pax0 o) then co (pax0 o) i else 0), (if valid (pax1 o) then co (pax1 o) i else 0))) in *.
  assert (A : ldot d u < co (high b) i - co (porigin o) i). { apply (interior_half l); auto. intros c Ic. specialize (C c Ic i Hi). rewrite placed_ldot in C. fold d in C. lra. }
  assert (B : ldot (- fst d, - snd d) u < co (porigin o) i - co (low b) i). { apply (interior_half l); auto. intros c Ic. specialize (C c Ic i Hi). rewrite placed_ldot in C. fold d in C. unfold ldot in *. cbn [fst snd] in *. lra. }
  unfold ldot in *. cbn [fst snd] in *. lra.
Qed.
Definition boxed (proper : bool) (b : axisbox R) : pt -> Prop := if proper then in_box_open n b else in_box n b.
Lemma region_boxed proper l o b : (forall c, In c l -> boxed proper b (placed o (co c))) <-> incl (region l) (fun u => boxed proper b (placed o u)).
Proof. destruct proper; [apply region_box_open|apply region_box]. Qed.
Lemma boxed_ext proper b x y : pteq n x y -> boxed proper b x -> boxed proper b y.
Proof. destruct proper; intros E X i Hi; rewrite <- (E i Hi); auto. Qed.
Lemma box_point_boxed proper b (c : coords R) x : pteq n (co c) x -> (i_box_point n b c proper = true <-> boxed proper b x).
Proof.
  intros E. assert (Q : i_box_point n b c proper = true <-> boxed proper b (co c)) by (destruct proper; apply (C39_point_exact n b c)).
  rewrite Q. split; apply boxed_ext; auto. intros i Hi. now rewrite E.
Qed.
Lemma space_in_box p b proper : pg_ok n p -> exists r, c_box_pg n b p proper = Ret r /\ (r = true <-> incl (space_region n p) (boxed proper b)).
Proof.
  intros O. unfold c_box_pg.
  destruct (meet_placed p (boxed proper b) (fun u => boxed proper b (placed (pplane p) u)) O (fun x y => boxed_ext proper b x y)) as [_ Me]; [intros; reflexivity|]. setoid_rewrite Me. setoid_rewrite <- region_boxed.
  edestruct (all_ret_iff (fun i => do c <- pg_corner n p i; Ret (i_box_point n b c proper)) (fun i => forall q, nth_error (pcorners p) i = Some q -> boxed proper b (placed (pplane p) (co q))) (seq 0 (pg_num p))) as (r & E & Q).
  - intros i I. apply in_seq in I. destruct (@nth_error (coords R) (pcorners p) i) as [q|] eqn:Eq; [|apply nth_error_None in Eq; unfold pg_num, point in I; lia].
    destruct (corner_def eps0 n p i q Eq (ok_corner n p i q O Eq)) as (c & Ec & _ & P). rewrite Ec. cbn [obind]. eexists. split; [reflexivity|].
    rewrite (box_point_boxed proper b c (placed (pplane p) (co q))). 2:{ intros j Hj. rewrite (P j Hj). symmetry. now apply placed_at. }
    split; [intros B q' E'; assert (q' = q) as -> by (unfold point in *; congruence); auto|intros B; now apply B].
  - exists r. split; auto. rewrite Q. split.
    + intros C c I. apply In_nth_error in I. destruct I as [i I]. apply (C i); auto. apply in_seq. split; [lia|]. cbn. apply nth_error_Some. unfold point in *. congruence.
    + intros C i _ q Eq. apply C. eapply nth_error_In. exact Eq.
Qed.

(** * Rotated boxes *)
Definition rboxed (proper : bool) (r : rotbox R) : pt -> Prop := if proper then in_rotbox_open n r else in_rotbox n r.
Lemma space_in_rb p r proper : pg_ok n p -> mvalid (orient r) = true -> valid (corner0 r) = true -> orthogonal n (ent (orient r)) -> (proper = true -> rb_thick n r) ->
  exists a, c_rb_pg n r p proper = Ret a /\ (a = true <-> incl (space_region n p) (rboxed proper r)).
Proof.
  intros O Mv Vc Or Th. unfold c_rb_pg, rb_orient. set (m := rot_inverse n (orient r)). set (o' := orient_rotate n (pplane p) m (corner0 r)).
  assert (Mvm : mvalid m = true) by (unfold m; exact Mv).
  pose proof (rotate_plane eps0 n (pplane p) m (corner0 r) Mvm Vc) as (V & V0 & V1 & M). fold o' in V, V0, V1, M.
  assert (Pl : forall u, plane_ok (pplane p) u -> pteq n (placed o' u) (frame n r (placed (pplane p) u))).
  { intros u U i Hi. rewrite (placed_at o' u i Hi), (M u U i Hi). unfold m; transitivity (frame n r (plane_at (pplane p) u) i); [exact (turned_frame eps0 n r (plane_at (pplane p) u) i Hi)|]. apply (frame_ext n r); auto. intros j Hj. symmetry. now apply placed_at. }
  assert (Rb : forall x, rboxed proper r x <-> boxed proper (rb_own_box n r) (frame n r x)). { intros x. unfold rboxed, boxed. destruct proper; [apply (in_frame_open eps0 n r Or)|apply (in_frame eps0 n r Or)]; auto. }
  assert (Fl : forall c, In c (pcorners p) -> plane_ok (pplane p) (co c)). { intros c I. destruct O as [_ F]. rewrite Forall_forall in F. apply (F c I). }
  destruct (meet_placed p (rboxed proper r) (fun u => boxed proper (rb_own_box n r) (frame n r (placed (pplane p) u))) O) as [_ Me].
  { intros x y E. unfold rboxed. destruct proper; [now apply respects_rb_open|now apply respects_rb]. }
  { intros u _ _. apply Rb. }
  setoid_rewrite Me.
  edestruct (all_ret_iff (fun q => do c <- orient_convert n o' q; Ret (i_box_point n (rb_own_box n r) c proper)) (fun q => boxed proper (rb_own_box n r) (placed o' (co q))) (pcorners p)) as (a & E & Q).
  - intros q I. destruct (convert_def eps0 n o' q) as (c & Ec & _ & P). { destruct (Fl q I) as (A & B & C). split; [now rewrite V|]. now rewrite V0, V1. }
    unfold point in *. rewrite Ec. cbn [obind]. eexists. split; [reflexivity|]. apply box_point_boxed. intros j Hj. rewrite (P j Hj). symmetry. now apply placed_at.
  - exists a. split; auto. rewrite Q. rewrite (region_boxed proper (pcorners p) o' (rb_own_box n r)). split; intros I u U; (assert (K : plane_ok (pplane p) u);
      [destruct (region_flat p u O U) as [U0 U1]; split; [|split; auto]; destruct (pcorners p) as [|c l] eqn:El; [now apply region_nil in U|]; apply (Fl c); cbn; auto|]).
    + apply (boxed_ext proper _ (placed o' u)); [now apply Pl|]. now apply I.
    + apply (boxed_ext proper _ (frame n r (placed (pplane p) u))); [|now apply I]. intros j Hj. symmetry. now apply Pl.
Qed.
End Space.
