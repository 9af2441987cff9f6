(** Two polygons in space whose planes are at right angles. *)
From Coq Require Import Reals List Bool Lra Lia Psatz Classical.
From Flocq Require Import Core.Raux.
From Verif Require Import Base Scalar ConstModel VecModel RotModel QuatModel VecSpec RSpec RotSpec RLib MatLib VecProofs VecProofs2 VecProofs4 ConstProofs ShapeSpec ShapeModel IntersectModel ShapeProofs ShapeProofs2 ShapeProofs3 BallProofs MotionProofs2 PolyModel PolySpec PolyProofs PolyIntersectModel EvenOddSpec EvenOddProofs RegionSpec RegionProofs PolyShapeProofs PolyShapeProofs2 PolyRbProofs SpaceSpec PolySpaceProofs PolySpaceProofs2 PolyPolyModel PolyPolyProofs.
Import ListNotations.
Open Scope R_scope.
#[local] Existing Instance Rnum | 0.
#[local] Existing Instance eps0.

(** * Crossings are never recorded: the cross product of the plane is never below zero *)
Lemma never_below (a b : coords R) : nltb (cross2 a b) (n0 (T := R)) = false.
Proof. cbn [nltb Rnum]. apply Rlt_bool_false. apply (cross2_nonneg eps0). unfold eps0. lra. Qed.
Lemma off_loop p v proper l before s : x_below s = false -> x_next s = 0%nat -> x_runs s = [] -> (forall c, In c l -> on_line p v c = false) ->
  exists s', cross_loop p v proper before l s = Ret s' /\ x_next s' = 0%nat /\ x_runs s' = [].
Proof.
  revert before s. induction l as [|c l IH]; intros before s B N Rn Off; [exists s; auto|].
  cbn [cross_loop]. unfold cross_corner. rewrite (Off c (or_introl eq_refl)). rewrite never_below, B. cbn [Bool.eqb negb obind].
  apply IH; auto. intros c' I. apply Off. now right.
Qed.
Lemma off_crossings l p v proper : l <> [] -> norm2 2 (co v) = 1 -> (forall c, In c l -> on_line p v c = false) -> get_crossings l p v proper = Ret [].
Proof.
  intros L U Off. unfold get_crossings. rewrite (sqr_mag_norm2 eps0 2), U. cbn [neps Rnum]. unfold epsilon, eps0. change (n1 (T := R)) with 1.
  replace (equal 1 1 0) with true by (symmetry; now apply equal_R_exact0). cbn [oassert]. destruct l as [|c0 l0]; [congruence|]. rewrite never_below.
  match goal with |- context [cross_loop p v proper [] ?L ?s0] => destruct (off_loop p v proper L [] s0) as (s' & E & N & Rn); [auto..|replace (cross_loop p v proper [] L s0) with (@Ret crossings s') by (symmetry; exact E)] end.
  cbn [obind]. now rewrite Rn, N.
Qed.
Lemma proper_loop p v l before s s' : x_below s = false -> x_next s = 0%nat -> x_runs s = [] -> cross_loop p v true before l s = Ret s' -> x_next s' = 0%nat /\ x_runs s' = [].
Proof.
  revert before s. induction l as [|c l IH]; intros before s B N Rn E; [cbn in E; injection E as <-; auto|].
  cbn [cross_loop] in E. unfold cross_corner in E. destruct (on_line p v c).
  - destruct l as [|c' l]; [discriminate E|]. destruct (line_run p v _ _ _ 0) as [[[[pj low] high] steps]|]; [|discriminate E].
    rewrite never_below, B in E. cbn [Bool.eqb andb obind] in E. apply (IH _ _ ) in E; auto.
  - rewrite never_below, B in E. cbn [Bool.eqb negb obind] in E. apply (IH _ _) in E; auto.
Qed.
Lemma proper_crossings l p v r : get_crossings l p v true = Ret r -> r = [].
Proof.
  unfold get_crossings. destruct (equal _ _ _); [|discriminate]. cbn [oassert]. destruct l as [|c0 l0]; [discriminate|]. rewrite never_below.
  match goal with |- context [cross_loop p v true [] ?L ?s0] => destruct (cross_loop p v true [] L s0) as [s'| | |] eqn:E; try discriminate; apply proper_loop in E; auto end.
  destruct E as [N Rn]. cbn [obind]. rewrite N, Rn. intros X. now injection X.
Qed.
Lemma same_co n (a b : coords R) : same n a b = true -> pteq n (co a) (co b).
Proof.
  unfold same. cbn [neps Rnum]. unfold epsilon, eps0. rewrite (vec_equal_iff 0 n). unfold scale_eps_arr. rewrite scale_eps_eps0. intros (_ & _ & C) i Hi. specialize (C i Hi).
  pose proof (Rabs_pos (co a i - co b i)). destruct (Req_dec (co a i - co b i) 0); [lra|]. pose proof (Rabs_pos_lt _ H0). lra.
Qed.

Section Right.
Variables p1 p2 : polygon R.
Notation o1 := (pplane p1).
Notation o2 := (pplane p2).
Hypothesis O1 : pg_ok 3 p1.
Hypothesis O2 : pg_ok 3 p2.
Hypothesis S1 : spans_plane p1.
Hypothesis S2 : spans_plane p2.
Hypothesis Rt : tilt p1 p2 = 0.
Notation a0 := (co (pax0 o1)).
Notation a1 := (co (pax1 o1)).
Notation b0 := (co (pax0 o2)).
Notation b1 := (co (pax1 o2)).

(** The line the code works with: a point of it and a unit direction, in the coordinates of each plane. *)
Lemma right_data : (orient_orient 3 o1 o2 = Ret None) \/
  exists d, orient_orient 3 o1 o2 = Ret (Some (1%nat, d)) /\ o1_is_line d = Some false /\ o2_is_line d = Some false /\
    norm2 2 (co (m_v1 d)) = 1 /\ in_plane 3 o2 (placed o1 (co (m_p1 d))) /\
    (forall x u, in_plane 3 o2 x -> in_plane 3 o2 (fun i => x i + u * (co (m_v1 d) 0%nat * a0 i + co (m_v1 d) 1%nat * a1 i))).
Proof.
  destruct (frame1 p1 O1 S1) as (A & B & AB & Vo1). destruct (frame1 p2 O2 S2) as (A' & B' & AB' & Vo2). destruct (basis_one p1 p2 O1 O2 S1 S2 Rt) as (b & s & E & Sp & Nb & In2 & In1).
  destruct S1 as [V0 V1]. destruct S2 as [W0 W1].
  unfold orient_orient. rewrite Vo1, Vo2, V0, W0, E. cbn [negb orb]. unfold meet_line. rewrite V1, W1. cbn [negb andb].
  destruct (differ _ _ _) eqn:Df; [now left|right]. eexists. split; [reflexivity|]. cbn [o1_is_line o2_is_line m_v1 m_p1]. split; [reflexivity|]. split; [reflexivity|].
  unfold differ in Df. apply negb_false_iff in Df. apply same_co in Df.
  set (h := vec_div 3 b (nsqrt s)).
  assert (Sq : sqrt s <> 0) by (intros Z; apply sqrt_eq_0 in Z; lra).
  assert (Hh : forall i, (i < 3)%nat -> co h i = / sqrt s * co b i). { intros i Hi. unfold h. rewrite div_co by auto. cbn [nsqrt Rnum]. unfold Rdiv. ring. }
  assert (Eh : forall y, inner 3 y (co h) = / sqrt s * inner 3 y (co b)). { intros y. rewrite <- inner_scal_r. now apply inner_ext. }
  assert (H1 : forall i, (i < 3)%nat -> co h i = inner 3 a0 (co h) * a0 i + inner 3 a1 (co h) * a1 i). { intros i Hi. rewrite !Eh, (Hh i Hi), (In1 i Hi) at 1. ring. }
  assert (H2 : forall i, (i < 3)%nat -> co h i = inner 3 b0 (co h) * b0 i + inner 3 b1 (co h) * b1 i). { intros i Hi. rewrite !Eh, (Hh i Hi), (In2 i Hi) at 1. ring. }
  assert (Nh : norm2 3 (co h) = 1). { rewrite (norm2_ext 3 _ _ Hh), norm2_scal, Nb. replace s with (sqrt s * sqrt s) at 3 by (apply sqrt_sqrt; lra). field. exact Sq. }
  split; [|split].
  - rewrite <- Nh, (norm2_ext 3 _ _ H1), (comb_norm a0 a1 A B AB). rewrite !(dot_inner 3). unfold norm2, inner, pt2, co. cbn. ring.
  - exists (co (pt2 (- dot 3 (vec_sub 3 (porigin o2) (porigin o1)) (pax0 o2)) (- dot 3 (vec_sub 3 (porigin o2) (porigin o1)) (pax1 o2)) false) 0%nat),
      (co (pt2 (- dot 3 (vec_sub 3 (porigin o2) (porigin o1)) (pax0 o2)) (- dot 3 (vec_sub 3 (porigin o2) (porigin o1)) (pax1 o2)) false) 1%nat).
    intros i Hi. specialize (Df i Hi). rewrite !sub_co, add_co, !scale_co in Df by auto. unfold placed. rewrite V0, V1. change (nopp (T := R)) with Ropp in *. set (k1 := dot 3 _ (pax0 o1)) in *. set (k2 := dot 3 _ (pax1 o1)) in *. set (k3 := dot 3 _ (pax0 o2)) in *. set (k4 := dot 3 _ (pax1 o2)) in *. clearbody k1 k2 k3 k4. unfold pt2. change (co (mkC [k1; k2] false) 0%nat) with k1. change (co (mkC [k1; k2] false) 1%nat) with k2. change (co (mkC [- k3; - k4] false) 0%nat) with (- k3). change (co (mkC [- k3; - k4] false) 1%nat) with (- k4). lra.
  - intros x u (q & r & Ex). exists (q + u * inner 3 b0 (co h)), (r + u * inner 3 b1 (co h)). intros i Hi.
    replace (co (pt2 (dot 3 (pax0 o1) h) (dot 3 (pax1 o1) h) false) 0%nat) with (inner 3 a0 (co h)) by (rewrite !(dot_inner 3); reflexivity).
    replace (co (pt2 (dot 3 (pax0 o1) h) (dot 3 (pax1 o1) h) false) 1%nat) with (inner 3 a1 (co h)) by (rewrite !(dot_inner 3); reflexivity).
    rewrite <- (H1 i Hi), (Ex i Hi), (H2 i Hi). ring.
Qed.
Lemma on_line_in_plane d c : norm2 2 (co (m_v1 d)) = 1 -> on_line (m_p1 d) (m_v1 d) c = true ->
  exists u, forall i, placed o1 (co c) i = placed o1 (co (m_p1 d)) i + u * (co (m_v1 d) 0%nat * a0 i + co (m_v1 d) 1%nat * a1 i).
Proof.
  intros U. unfold on_line. rewrite (sqr_mag_norm2 eps0 2), (dot_inner 2). cbn [neps Rnum nmul]. unfold epsilon, eps0. rewrite equal_R_exact0. intros E.
  destruct S1 as [V0 V1]. set (p := m_p1 d) in *. set (v := m_v1 d) in *. exists (inner 2 (co (vec_sub 2 c p)) (co v)).
  unfold norm2, inner in E, U |- *. cbn [Rsum] in E, U |- *. rewrite !sub_co in E by lia. rewrite !sub_co by lia.
  set (x := co c 0%nat - co p 0%nat) in *. set (y := co c 1%nat - co p 1%nat) in *. set (z := co v 0%nat) in *. set (w := co v 1%nat) in *.
  assert (X : (x * w - y * z) * (x * w - y * z) = 0). { transitivity ((0 + x * x + y * y) * (0 + z * z + w * w) - (0 + x * z + y * w) * (0 + x * z + y * w)); [ring|]. rewrite U, E. ring. }
  assert (Y : x * w - y * z = 0) by (apply Rsqr_0_uniq; exact X).
  assert (Ex : x = (0 + x * z + y * w) * z). { transitivity (x * (0 + z * z + w * w) - w * (x * w - y * z)); [rewrite U, Y; ring|ring]. }
  assert (Ey : y = (0 + x * z + y * w) * w). { transitivity (y * (0 + z * z + w * w) + z * (x * w - y * z)); [rewrite U, Y; ring|ring]. }
  intros i. unfold placed. rewrite V0, V1. replace (co c 0%nat) with (co p 0%nat + x) by (unfold x; ring). replace (co c 1%nat) with (co p 1%nat + y) by (unfold y; ring). rewrite Ex at 1. rewrite Ey at 2. ring.
Qed.
Lemma right_miss proper : pcorners p1 <> [] -> (forall c, In c (pcorners p1) -> ~ in_plane 3 o2 (placed o1 (co c))) -> i_pg_pg 3 p1 p2 proper = Ret false.
Proof.
  intros N1 Off. unfold i_pg_pg. destruct right_data as [->|(d & -> & L1 & L2 & U & P & Dir)]; [reflexivity|]. cbn [obind poly_poly_intersect]. rewrite L1, L2. cbn [orb andb]. rewrite andb_false_r.
  rewrite off_crossings; auto. intros c I. destruct (on_line _ _ c) eqn:E; auto. exfalso. destruct (on_line_in_plane d c U E) as (u & Eu). apply (Off c I).
  destruct (Dir _ u P) as (q & r & X). exists q, r. intros i Hi. rewrite Eu. now apply X.
Qed.
Lemma right_proper : i_pg_pg 3 p1 p2 true <> Ret true.
Proof.
  unfold i_pg_pg. destruct right_data as [->|(d & -> & L1 & L2 & _)]; [discriminate|]. cbn [obind poly_poly_intersect]. rewrite L1, L2. cbn [orb andb].
  destruct (get_crossings _ _ _ _) as [r| | |] eqn:E; try discriminate. apply proper_crossings in E. subst r. discriminate.
Qed.
Lemma right_contains proper : pcorners p1 <> [] -> pcorners p2 <> [] -> c_pg_pg 3 p1 p2 proper = Ret false.
Proof.
  intros N1 N2. unfold c_pg_pg. destruct (pcorners p1) as [|c1 l1]; [congruence|]. destruct (pcorners p2) as [|c2 l2]; [congruence|].
  destruct right_data as [->|(d & -> & L1 & L2 & _)]; [reflexivity|]. cbn [obind poly_poly_contains]. now rewrite L2.
Qed.
End Right.
