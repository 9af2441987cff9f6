(** C62 again: polygons all of whose corners are at one point of space (one corner, or the same corner again: no axis is set). *)
From Coq Require Import ZArith NArith Reals Bool List Lia Lra.
From Flocq Require Import Core.Raux.
From Verif Require Import Base Scalar ConstModel VecModel RotModel QuatModel ShapeModel IntersectModel PolyModel PolyIntersectModel PolyPolyModel RSpec VecSpec RotSpec ShapeSpec EvenOddSpec RegionSpec PolySpec SpaceSpec RLib MatLib OrdLib B64Lib VecProofs VecProofs2 VecProofs4 ConstProofs ShapeProofs ShapeProofs2 ShapeProofs3 BallProofs EvenOddProofs RegionProofs PolyShapeProofs PolyProofs MotionProofs2 PolySpaceProofs PolySpaceProofs2 PropPolyPoint PropPoly PropPolyShape PropSpace PolyPolyProofs PropPolyPoly.
Import ListNotations.
Open Scope R_scope.

Section Points.
Context (eps : Epsilon).
#[local] Existing Instance Rnum | 0.
Definition level0 (c : coords R) : Prop := co c 1 = 0.
Lemma point_loop l (x : point R) proper hit : Forall (fun e => level0 (fst e) /\ level0 (snd e)) l -> pg2_point_loop x proper l hit = hit.
Proof.
  induction 1 as [|[i j] l [A B] F IH]; [reflexivity|]. cbn [pg2_point_loop fst snd] in *. replace (between (at_ i 1) (at_ x 1) (at_ j 1)) with false; [exact IH|].
  change (at_ i 1) with (co i 1). change (at_ j 1) with (co j 1). rewrite A, B. unfold between. cbn [nleb nltb Rnum]. destruct (Rle_bool_spec 0 (at_ x 1)) as [G|G], (Rlt_bool_spec (at_ x 1) 0) as [K|K]; auto; lra.
Qed.
Lemma edges_level : forall l p, level0 p -> Forall level0 l -> Forall (fun e => level0 (fst e) /\ level0 (snd e)) (edges_from p l).
Proof. induction l as [|c l IH]; intros p P F; cbn [edges_from]; constructor; inversion F; subst; auto. Qed.
Lemma last_level l d : Forall level0 l -> l <> [] -> level0 (last l d).
Proof. induction 1 as [|c l C F IH]; [congruence|]. intros _. destruct l; [exact C|]. now apply IH. Qed.
Lemma point_outside l x proper : Forall level0 l -> l <> [] -> i_pg2_point l x proper = Ret false.
Proof. intros F N. unfold i_pg2_point. destruct l as [|c l]; [congruence|]. rewrite point_loop; [reflexivity|]. apply edges_level; auto. now apply last_level. Qed.
Lemma inside_returns l x proper : l <> [] -> exists r, i_pg2_point l x proper = Ret r.
Proof. unfold i_pg2_point. destruct l as [|c l]; [congruence|]. eauto. Qed.
Lemma never_same l x : valid x = false -> l <> [] -> c_point_pg2 x l false = false.
Proof. intros V N. unfold c_point_pg2. destruct l as [|c l]; [congruence|]. cbn [forallb]. unfold same, vec_equal. rewrite V. cbn [negb]. now rewrite orb_true_r. Qed.
Lemma level_of n p : pg_ok n p -> valid (pax0 (pplane p)) = false -> Forall level0 (pcorners p).
Proof.
  intros ((F1 & _) & F) V. refine (Forall_impl _ _ F). intros c (_ & _ & C). apply C. destruct (valid (pax1 (pplane p))); auto. rewrite F1 in V; congruence.
Qed.
Lemma origin_of n p : pg_ok n p -> pcorners p <> [] -> valid (porigin (pplane p)) = true.
Proof. intros (_ & F) N. destruct (pcorners p) as [|c l]; [congruence|]. now inversion F as [|? ? (V & _)]. Qed.
Lemma contained_valid n o x : valid (porigin o) = true -> exists r, orient_contained n o x = Ret r /\ forall c, r = Some c -> valid c = false.
Proof. intros V. unfold orient_contained, orient_offset. rewrite V. cbn [oassert obind]. eexists. split; [reflexivity|]. intros c. destruct (nltb _ _); [|discriminate]. intros E. injection E as <-. reflexivity. Qed.
Lemma points_answer n (p1 p2 : polygon R) proper : pg_ok n p1 -> pg_ok n p2 -> pcorners p1 <> [] -> pcorners p2 <> [] ->
  valid (pax0 (pplane p1)) = false \/ valid (pax0 (pplane p2)) = false -> i_pg_pg n p1 p2 proper = Ret false /\ c_pg_pg n p1 p2 proper = Ret false.
Proof.
  intros O1 O2 N1 N2 V. pose proof (origin_of n p1 O1 N1) as V1. pose proof (origin_of n p2 O2 N2) as V2.
  assert (I : exists r, orient_orient n (pplane p1) (pplane p2) = Ret r /\ (r = None \/ exists d, r = Some (0%nat, d) /\ valid (m_p2 d) = false)).
  { unfold orient_orient. rewrite V1, V2. cbn [negb orb]. destruct (valid (pax0 (pplane p1))) eqn:A1; cbn [negb].
    - destruct V as [V|V]; [congruence|]. rewrite V. cbn [negb]. destruct (contained_valid n (pplane p1) (porigin (pplane p2)) V1) as (r & -> & _). cbn [obind]. eexists. split; [reflexivity|]. destruct r; [right; eexists; split; reflexivity|now left].
    - destruct (contained_valid n (pplane p2) (porigin (pplane p1)) V2) as (r & -> & C). cbn [obind]. eexists. split; [reflexivity|]. destruct r as [c|]; [right; eexists; split; [reflexivity|now apply C]|now left]. }
  destruct I as (r & E & Hr). unfold i_pg_pg, c_pg_pg. rewrite E. cbn [obind]. split.
  - destruct Hr as [->|(d & -> & _)]; [reflexivity|]. cbn [poly_poly_intersect]. destruct (inside_returns (pcorners p1) (m_p1 d) proper N1) as (a & Ea). rewrite Ea. cbn [obind].
    destruct V as [V|V].
    + rewrite (point_outside _ _ _ (level_of n p1 O1 V) N1) in Ea. injection Ea as <-. reflexivity.
    + destruct a; [|reflexivity]. now apply point_outside; [apply (level_of n)|].
  - destruct (pcorners p1) as [|a l1]; [congruence|]. destruct (pcorners p2) as [|b l2]; [congruence|]. destruct Hr as [->|(d & -> & Vd)]; [reflexivity|]. cbn [poly_poly_contains]. now rewrite never_same.
Qed.
End Points.

(** Whatever the tolerance and the dimension, a polygon at one point is never said to meet another polygon or to be inside it, even when
    the point is inside: the point found in the plane is marked as not valid, so it equals no corner, and the even-odd test has no side
    to cross. *)
Definition dot3 (x y z : R) : polygon R := mkP (mkO (v3 x y z) (mkC [0; 0; 0] false) (mkC [0; 0; 0] false)) [P2 0 0].
Theorem C62_point_refuted :
  (forall (eps : Epsilon) n (p1 p2 : polygon R) proper, pg_ok n p1 -> pg_ok n p2 -> pcorners p1 <> [] -> pcorners p2 <> [] ->
     valid (pax0 (pplane p1)) = false \/ valid (pax0 (pplane p2)) = false ->
     i_pg_pg (H := Rnum eps) n p1 p2 proper = Ret false /\ c_pg_pg (H := Rnum eps) n p1 p2 proper = Ret false) /\
  exists p1 p2 : polygon R, pg_ok 3 p1 /\ pg_ok 3 p2 /\ pcorners p1 <> [] /\ pcorners p2 <> [] /\ valid (pax0 (pplane p2)) = false /\
    incl (space_region 3 p2) (space_interior 3 p1) /\ meet (space_region 3 p2) (space_interior 3 p1).
Proof.
  split; [intros eps n p1 p2 proper; apply points_answer|].
  exists square3, (dot3 (- 1 / 2) (1 / 2) 0). split; [apply square3_ok|]. split.
  { split; [|repeat constructor]. unfold frame_ok, dot3. cbn. repeat split; intros; discriminate. }
  split; [discriminate|]. split; [discriminate|]. split; [reflexivity|].
  assert (I : forall y, pteq 3 y (co (v3 (- 1 / 2) (1 / 2) 0)) -> space_interior 3 square3 y).
  { intros y Y. exists (co (P2 (1 / 2) (3 / 2))). split; [unfold square3, rectangle; cbn [pcorners]; in_interior|]. intros i Hi. rewrite (Y i Hi). destruct i as [|[|[|i]]]; [| | |lia]; unfold placed, square3, P2, v3, co; cbn; lra. }
  assert (D : pteq 3 (co (v3 (- 1 / 2) (1 / 2) 0)) (placed (pplane (dot3 (- 1 / 2) (1 / 2) 0)) (co (P2 0 0)))) by (intros [|[|[|i]]] Hi; [| | |lia]; unfold placed, dot3, v3, co; cbn; lra).
  split.
  - intros y (u & _ & E). apply I. intros i Hi. rewrite (E i Hi). destruct i as [|[|[|i]]]; [| | |lia]; unfold placed, dot3, v3, co; cbn; lra.
  - exists (co (v3 (- 1 / 2) (1 / 2) 0)). split; [|now apply I]. exists (co (P2 0 0)). split; [left; apply corner_region; now left|exact D].
Qed.
Print Assumptions C62_point_refuted.

(** Empty polygons: every polygon contains the empty set, the empty set contains nothing else, and nothing contains itself properly;
    a polygon made empty (no origin) meets nothing. *)
Theorem C62_empty : forall (eps : Epsilon) n (p1 p2 : polygon R) proper,
  (pcorners p1 = [] \/ pcorners p2 = [] ->
     exists r, c_pg_pg (H := Rnum eps) n p1 p2 proper = Ret r /\
       (r = true <-> incl (space_region n p2) (space_region n p1) /\ (proper = true -> pcorners p1 <> []))) /\
  (valid (porigin (pplane p1)) = false \/ valid (porigin (pplane p2)) = false -> i_pg_pg (H := Rnum eps) n p1 p2 proper = Ret false).
Proof.
  intros eps n p1 p2 proper. assert (Em : forall p : polygon R, pcorners p = [] -> forall y, ~ space_region n p y).
  { intros p E y (u & X & _). rewrite E in X. now apply region_nil in X. }
  split.
  - intros Ey. unfold c_pg_pg. destruct (pcorners p1) as [|a l1] eqn:E1, (pcorners p2) as [|b l2] eqn:E2.
    + eexists. split; [reflexivity|]. destruct proper; cbn [negb]; (split; [intros X; try discriminate|]).
      * intros [_ X]. now specialize (X eq_refl).
      * split; [|discriminate]. intros y Y. now apply (Em p2) in Y.
      * reflexivity.
    + eexists. split; [reflexivity|]. split; [discriminate|]. intros [X _]. exfalso. apply (Em p1 E1 (placed (pplane p2) (co b))). apply X. exists (co b). split; [left; apply corner_region; rewrite E2; now left|intros i Hi; reflexivity].
    + eexists. split; [reflexivity|]. split; [|reflexivity]. intros _. split; [|discriminate]. intros y Y. now apply (Em p2) in Y.
    + destruct Ey; discriminate.
  - intros V. unfold i_pg_pg, orient_orient. replace (negb (valid (porigin (pplane p1))) || negb (valid (porigin (pplane p2)))) with true; [reflexivity|]. destruct V as [-> | ->]; cbn [negb orb]; auto. now rewrite orb_true_r.
Qed.
Example C62_empty_example : pcorners (mkP (pplane square3) []) = [] /\ pcorners square3 <> [] /\ valid (porigin (mkO (mkC [0; 0; 0] false) (v3 0 0 0) (v3 0 0 0))) = false.
Proof. repeat split; auto; discriminate. Qed.
Print Assumptions C62_empty.

(** A rotated box, turned by a quarter about its corner (6, 2) so that it covers [2, 6] x [2, 6]: said not to be inside a rectangle that
    holds it, and to be inside a square that does not hold its corner (2, 2). *)
Definition turned_tile {T} (K : Z -> T) : rotbox T := mkRB (w3 K 6 2 0) (w3 K 4 4 0) (mkM [[K 0; K 1; K 0]; [K (-1); K 0; K 0]; [K 0; K 0; K 1]]%Z false true 1).
Definition plate2 : list (Z * Z) := [(1, 1); (7, 1); (7, 8); (1, 8)]%Z.
Definition diamond2 : list (Z * Z) := [(6, 1); (9, 4); (6, 7); (3, 4)]%Z.
Theorem C62_contains_rotbox_refuted : forall m : libm,
  (incl (in_rotbox 3 (turned_tile IZR)) (space_interior 3 (floor IZR plate2)) /\ c_pg_rb (H := B64 m) 3 (floor b64_ofZ plate2) (turned_tile b64_ofZ) false = Ret false) /\
  (~ incl (in_rotbox 3 (turned_tile IZR)) (space_region 3 (floor IZR diamond2)) /\ c_pg_rb (H := B64 m) 3 (floor b64_ofZ diamond2) (turned_tile b64_ofZ) true = Ret true).
Proof.
  intros m.
  assert (At : forall s i, (i < 3)%nat -> rb_at 3 (turned_tile IZR) s i = match i with 0%nat => 6 - 4 * s 1%nat | 1%nat => 2 + 4 * s 0%nat | _ => 0 end).
  { intros s i Hi. unfold rb_at, ent, co, turned_tile, w3. destruct i as [|[|[|i]]]; [| | |lia]; cbn; unfold elem, mget, get; cbn; lra. }
  split; split; try (vm_compute; reflexivity).
  - intros y (s & S & Y). pose proof (S 0%nat ltac:(lia)) as S0. pose proof (S 1%nat ltac:(lia)) as S1.
    assert (Y0 : y 0%nat = 6 - 4 * s 1%nat) by (rewrite (Y 0%nat) by lia; now rewrite At by lia). assert (Y1 : y 1%nat = 2 + 4 * s 0%nat) by (rewrite (Y 1%nat) by lia; now rewrite At by lia). assert (Y2 : y 2%nat = 0) by (rewrite (Y 2%nat) by lia; now rewrite At by lia).
    exists (co (P2 (y 0%nat) (y 1%nat))). split; [|intros [|[|[|i]]] Hi; [| | |lia]; unfold placed, floor, w3, P2, co; cbn; lra].
    cbn [pcorners floor plate2 map w2 fst snd]. change (interior [P2 1 1; P2 7 1; P2 7 8; P2 1 8] (co (P2 (y 0%nat) (y 1%nat)))). in_interior.
  - intros X. destruct (X (co (v3 2 2 0))) as (u & Rg & E). { exists (fun k => match k with 1%nat => 1 | _ => 0 end). split; [intros [|[|[|k]]] Hk; lra|]. intros i Hi. rewrite At by lia. destruct i as [|[|[|i]]]; [| | |lia]; unfold v3, co; cbn; lra. }
    assert (L : ldot (-1, -1) u <= -7). { apply (region_half (pcorners (floor IZR diamond2))); auto. cbn [pcorners floor diamond2 map w2 fst snd]. intros c I. cbn [In] in I. decompose [or] I; try contradiction; subst c; unfold ldot, co; cbn; lra. }
    pose proof (E 0%nat ltac:(lia)) as E0. pose proof (E 1%nat ltac:(lia)) as E1. unfold placed, floor, w3, v3, co in E0, E1. cbn in E0, E1. unfold ldot in L. cbn [fst snd] in L. lra.
Qed.
Print Assumptions C62_contains_rotbox_refuted.
