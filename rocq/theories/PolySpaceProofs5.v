(** The plane test of polygons against boxes in three dimensions, in exact arithmetic. *)
From Coq Require Import Reals List Bool Lra Lia Psatz NArith.
From Flocq Require Import Core.Raux.
From Verif Require Import Base Scalar ConstModel VecModel VecSpec RSpec RLib VecProofs VecProofs2 VecProofs3 VecProofs4 ConstProofs ShapeSpec ShapeModel IntersectModel ShapeProofs ShapeProofs2 ShapeProofs3 MotionProofs2 PolyModel PolySpec PolyProofs PolyIntersectModel EvenOddSpec RegionSpec RegionProofs PolyShapeProofs SpaceSpec PolySpaceProofs PolySpaceProofs2 PolySpaceProofs4 PropSeg.
Import ListNotations.
Open Scope R_scope.
#[local] Existing Instance Rnum | 0.
#[local] Existing Instance eps0.

Section Plane.
Variables (o : porient R) (b : axisbox R).
Hypothesis F : frame_ok 3 o.
Hypothesis V0 : valid (pax0 o) = true.
Hypothesis V1 : valid (pax1 o) = true.
Hypothesis T : box_thick 3 b.
Let N := cross_coord (co (pax0 o)) (co (pax1 o)).
Lemma normal_unit : norm2 3 N = 1.
Proof.
  destruct F as (_ & _ & A & B). specialize (A V0). destruct (B V1) as [B1 AB]. unfold N. revert A B1 AB. unfold norm2, inner. cbn [Rsum cross_coord].
  set (a0 := co (pax0 o) 0). set (a1 := co (pax0 o) 1). set (a2 := co (pax0 o) 2). set (b0 := co (pax1 o) 0). set (b1 := co (pax1 o) 1). set (b2 := co (pax1 o) 2). intros A B1 AB.
  transitivity ((a0 * a0 + a1 * a1 + a2 * a2) * (b0 * b0 + b1 * b1 + b2 * b2) - (a0 * b0 + a1 * b1 + a2 * b2) * (a0 * b0 + a1 * b1 + a2 * b2)); [ring|].
  replace (a0 * a0 + a1 * a1 + a2 * a2) with 1 by lra. replace (b0 * b0 + b1 * b1 + b2 * b2) with 1 by lra. replace (a0 * b0 + a1 * b1 + a2 * b2) with 0 by lra. ring.
Qed.
Lemma height_placed u : height o (placed o u) = 0.
Proof.
  unfold height, inner, placed. rewrite V0, V1. cbn [Rsum cross_coord]. ring.
Qed.
Definition lowc : coords R := mkC (tab 3 (fun i => if Rlt_bool 0 (N i) then co (low b) i else co (high b) i)) true.
Definition highc : coords R := mkC (tab 3 (fun i => if Rlt_bool 0 (N i) then co (high b) i else co (low b) i)) true.
Lemma height_low x : in_box 3 b x -> height o (co lowc) <= height o x.
Proof.
  intros X. unfold height, inner. cbn [Rsum]. fold N. assert (K : forall i, (i < 3)%nat -> N i * (co lowc i - co (porigin o) i) <= N i * (x i - co (porigin o) i)).
  { intros i Hi. unfold lowc. rewrite co_tab by auto. specialize (X i Hi). destruct (Rlt_bool_spec 0 (N i)); nra. }
  pose proof (K 0%nat ltac:(lia)). pose proof (K 1%nat ltac:(lia)). pose proof (K 2%nat ltac:(lia)). lra.
Qed.
Lemma some_normal : exists i, (i < 3)%nat /\ N i <> 0.
Proof.
  destruct (Req_dec (N 0%nat) 0); [destruct (Req_dec (N 1%nat) 0); [destruct (Req_dec (N 2%nat) 0)|]|]; try (eexists; split; [|eassumption]; lia).
  exfalso. pose proof normal_unit as U. unfold norm2, inner in U. cbn [Rsum] in U. rewrite H, H0, H1 in U. lra.
Qed.
Lemma height_low_open x : in_box_open 3 b x -> height o (co lowc) < height o x.
Proof.
  intros X. unfold height, inner. cbn [Rsum]. fold N. assert (K : forall i, (i < 3)%nat -> N i * (co lowc i - co (porigin o) i) <= N i * (x i - co (porigin o) i) /\ (N i <> 0 -> N i * (co lowc i - co (porigin o) i) < N i * (x i - co (porigin o) i))).
  { intros i Hi. unfold lowc. rewrite co_tab by auto. specialize (X i Hi). destruct (Rlt_bool_spec 0 (N i)); split; nra. }
  pose proof (proj1 (K 0%nat ltac:(lia))). pose proof (proj1 (K 1%nat ltac:(lia))). pose proof (proj1 (K 2%nat ltac:(lia))).
  destruct some_normal as (i & Hi & Z). pose proof (proj2 (K i Hi) Z). destruct i as [|[|[|i]]]; [lra|lra|lra|lia].
Qed.
Lemma low_in : in_box 3 b (co lowc).
Proof. intros i Hi. unfold lowc. rewrite co_tab by auto. specialize (T i Hi). destruct (Rlt_bool 0 (N i)); lra. Qed.
Lemma height_gap : height o (co lowc) < height o (co highc).
Proof.
  unfold height, inner. cbn [Rsum]. fold N. assert (K : forall i, (i < 3)%nat -> N i * (co lowc i - co (porigin o) i) <= N i * (co highc i - co (porigin o) i) /\ (N i <> 0 -> N i * (co lowc i - co (porigin o) i) < N i * (co highc i - co (porigin o) i))).
  { intros i Hi. unfold lowc, highc. rewrite !co_tab by auto. specialize (T i Hi). destruct (Rlt_bool_spec 0 (N i)); split; nra. }
  pose proof (proj1 (K 0%nat ltac:(lia))). pose proof (proj1 (K 1%nat ltac:(lia))). pose proof (proj1 (K 2%nat ltac:(lia))).
  destruct some_normal as (i & Hi & Z). pose proof (proj2 (K i Hi) Z). destruct i as [|[|[|i]]]; [lra|lra|lra|lia].
Qed.
Lemma plane_box_spec proper : exists q : point R,
  plane_box 3 o b proper = Ret (if less_ (height o (co lowc)) 0 proper then None else Some q).
Proof.
  unfold plane_box. rewrite V0, V1. destruct F as (_ & F2 & _). rewrite (F2 V0). cbn [andb oassert].
  set (nm := cross3 (pax0 o) (pax1 o)). assert (En : forall i, (i < 3)%nat -> co nm i = N i) by (intros i Hi; unfold nm; now rewrite cross3_co0).
  set (mg := sloppy_mag3 nm).
  assert (U : forall i, (i < 3)%nat -> (if nltb (nabs (at_ nm i)) (nmul mg neps) then false else nltb n0 (at_ nm i)) = Rlt_bool 0 (N i)).
  { intros i Hi. change (at_ nm i) with (co nm i). rewrite (En i Hi). cbn [nltb nabs nmul neps Rnum]. unfold n0. cbn [nofZ Rnum]. rewrite (Rlt_bool_false (Rabs (N i))); [reflexivity|]. unfold epsilon, eps0. rewrite Rmult_0_r. apply Rabs_pos. }
  rewrite (U 0%nat), (U 1%nat), (U 2%nat) by lia.
  assert (Hh : forall x0 x1 x2 : bool, forall i, (i < 3)%nat -> co (box_corner 3 b ((if x0 then 1 else 0) + (if x1 then 2 else 0) + (if x2 then 4 else 0))%N) i = if nth i [x0; x1; x2] false then co (high b) i else co (low b) i).
  { intros x0 x1 x2 i Hi. destruct x0, x1, x2; unfold box_corner; cbn [N.add N.ltb N.leb N.compare N.pow N.sub N.of_nat Pos.compare Pos.compare_cont Pos.add Pos.succ Pos.pow Pos.iter Pos.mul Pos.pred_double Pos.of_succ_nat]; try (destruct i as [|[|[|i]]]; [reflexivity|reflexivity|reflexivity|lia]). }
  assert (Hl : forall x0 x1 x2 : bool, forall i, (i < 3)%nat -> co (box_corner 3 b (7 - ((if x0 then 1 else 0) + (if x1 then 2 else 0) + (if x2 then 4 else 0)))%N) i = if nth i [x0; x1; x2] false then co (low b) i else co (high b) i).
  { intros x0 x1 x2 i Hi. destruct x0, x1, x2; (destruct i as [|[|[|i]]]; [reflexivity|reflexivity|reflexivity|lia]). }
  set (num := ((if Rlt_bool 0 (N 0) then 1 else 0) + (if Rlt_bool 0 (N 1) then 2 else 0) + (if Rlt_bool 0 (N 2) then 4 else 0))%N).
  assert (Eh : pteq 3 (co (box_corner 3 b num)) (co highc)). { intros i Hi. unfold num. rewrite Hh by auto. unfold highc. rewrite co_tab by auto. destruct i as [|[|[|i]]]; [reflexivity|reflexivity|reflexivity|lia]. }
  assert (El : pteq 3 (co (box_corner 3 b (7 - num)%N)) (co lowc)). { intros i Hi. unfold num. rewrite Hl by auto. unfold lowc. rewrite co_tab by auto. destruct i as [|[|[|i]]]; [reflexivity|reflexivity|reflexivity|lia]. }
  set (hc := box_corner 3 b num) in *. set (lc := box_corner 3 b (7 - num)%N) in *.
  assert (Dn : forall x : coords R, dot 3 (vec_sub 3 x (porigin o)) nm = height o (co x)).
  { intros x. rewrite (dot_inner 3). unfold height. rewrite inner_comm. apply inner_ext; auto. intros i Hi. now rewrite sub_co. }
  rewrite !Dn. assert (Hx : forall x y, pteq 3 x y -> height o x = height o y). { intros x y E. unfold height. apply inner_ext; auto. intros i Hi. now rewrite (E i Hi). }
  rewrite (Hx _ _ Eh), (Hx _ _ El).
  assert (Gap : dot 3 nm (vec_sub 3 hc lc) = height o (co highc) - height o (co lowc)).
  { rewrite (dot_inner 3). unfold height, inner. cbn [Rsum]. rewrite !sub_co, !En by lia. rewrite (Eh 0%nat), (Eh 1%nat), (Eh 2%nat), (El 0%nat), (El 1%nat), (El 2%nat) by lia. fold N. ring. }
  rewrite Gap. pose proof height_gap as G. set (hh := height o (co highc)) in *. set (hl := height o (co lowc)) in *.
  assert (M : 0 < mg). { unfold mg. pose proof (proj1 (sloppy3_bracket eps0 nm)) as S. rewrite mag_norm in S. eapply Rlt_le_trans; [|exact S]. unfold norm. rewrite (norm2_ext 3 _ N) by auto. rewrite normal_unit, sqrt_1. lra. }
  assert (P : 0 < (hh - hl) / mg). { apply Rdiv_lt_0_compat; lra. }
  cbn [nleb nltb ndiv nmul neps Rnum]. unfold n0. cbn [nofZ Rnum]. change (IZR 0) with 0. rewrite (Rle_bool_true 0) by (apply Rlt_le; exact P). cbn [oassert].
  rewrite (Rlt_bool_false ((hh - hl) / mg)). 2:{ unfold epsilon, eps0. rewrite Rmult_0_r. apply Rlt_le. exact P. }
  assert (L : less_ hh 0 proper || less_ hl 0 proper = less_ hl 0 proper).
  { destruct (less_ hh 0 proper) eqn:Q; [|reflexivity]. cbn [orb]. symmetry. apply not_false_is_true. intros Z. apply not_false_iff_true in Q. apply Q. destruct proper; [rewrite (less_proper 0) in *|rewrite (less_false 0) in *]; lra. }
  rewrite L. destruct (less_ hl 0 proper); [exists hc; reflexivity|]. unfold orient_offset. rewrite (F2 V0). cbn [oassert obind]. eexists. reflexivity.
Qed.
End Plane.
Lemma orient_box_plane o b proper : frame_ok 3 o -> valid (pax0 o) = true -> valid (pax1 o) = true -> orient_box 3 o b proper = plane_box 3 o b proper.
Proof. intros (_ & F2 & _) V0 V1. unfold orient_box. rewrite (F2 V0), V0, V1. reflexivity. Qed.
Lemma map_ret_all {A B} (f : A -> outcome B) l : (forall x, In x l -> exists y, f x = Ret y) -> exists ys, map_ret f l = Ret ys.
Proof.
  induction l as [|x l IH]; intros F; cbn [map_ret]; [eexists; reflexivity|]. destruct (F x (or_introl eq_refl)) as (y & ->). cbn [obind]. destruct IH as (ys & ->); [intros z I; apply F; now right|]. cbn [obind]. eexists. reflexivity.
Qed.
Lemma space_box_misses p b proper : pg_ok 3 p -> valid (pax0 (pplane p)) = true -> valid (pax1 (pplane p)) = true -> box_thick 3 b ->
  (exists u, in_box_open 3 b (placed (pplane p) u)) -> i_pg_box 3 p b proper = Ret false.
Proof.
  intros [F _] V0 V1 T (u & U). unfold i_pg_box, pg_box_with. destruct (pcorners p) as [|c l]; [reflexivity|]. rewrite orient_box_plane by auto.
  destruct (plane_box_spec (pplane p) b F V0 V1 T proper) as (q & E). unfold point in *. rewrite E. clear E.
  assert (L : height (pplane p) (co (lowc (pplane p) b)) < 0). { rewrite <- (height_placed (pplane p) V0 V1 u). now apply height_low_open. }
  assert (Q : less_ (height (pplane p) (co (lowc (pplane p) b))) 0 proper = true). { apply not_false_is_true. intros Z. destruct proper; [apply (less_proper 0) in Z|apply (less_false 0) in Z]; [lra|change (0 - height (pplane p) (co (lowc (pplane p) b)) <= 0) in Z; lra]. }
  rewrite Q. reflexivity.
Qed.
Lemma space_box_above p b proper : pg_ok 3 p -> valid (pax0 (pplane p)) = true -> valid (pax1 (pplane p)) = true -> box_thick 3 b -> pcorners p <> [] ->
  (forall x, in_box 3 b x -> 0 < height (pplane p) x) -> i_pg_box 3 p b proper = Undef.
Proof.
  intros O V0 V1 T Nn Ab. destruct (i_pg_box 3 p b proper) as [[|]| | |] eqn:E; auto.
  - exfalso. destruct (space_box_sound 3 p b proper O) as (y & (u & _ & Y) & B); auto; [intros i Hi; specialize (T i Hi); lra|].
    assert (K : in_box 3 b (placed (pplane p) u)). { intros i Hi. rewrite <- (Y i Hi). unfold boxed in B. destruct proper; specialize (B i Hi); lra. }
    specialize (Ab _ K). rewrite height_placed in Ab by auto. lra.
  - exfalso. unfold i_pg_box, pg_box_with in E. destruct (pcorners p) as [|c l] eqn:El; [easy|]. rewrite orient_box_plane in E by (auto; apply O).
    destruct (plane_box_spec (pplane p) b (proj1 O) V0 V1 T proper) as (q & Eq). unfold point in *. rewrite Eq in E. clear Eq.
    assert (L : 0 < height (pplane p) (co (lowc (pplane p) b))) by (apply Ab; now apply low_in).
    assert (Q : less_ (height (pplane p) (co (lowc (pplane p) b))) 0 proper = false) by (destruct proper; [apply (less_proper 0); lra|apply (less_false 0); change (0 - height (pplane p) (co (lowc (pplane p) b)) <= 0); lra]).
    rewrite Q in E. cbn [obind] in E. match type of E with obind ?m _ = _ => destruct m as [cs| | |] end; try discriminate. cbn [obind] in E. match type of E with (if ?x then _ else _) = _ => destruct x end; discriminate.
  - exfalso. destruct O as [F Fl]. unfold i_pg_box, pg_box_with in E. destruct (pcorners p) as [|c l] eqn:El; [easy|]. rewrite orient_box_plane in E by auto.
    destruct (plane_box_spec (pplane p) b F V0 V1 T proper) as (q & Eq). unfold point in *. rewrite Eq in E. clear Eq. destruct (less_ _ _ _); [discriminate|]. cbn [obind] in E.
    destruct (map_ret_all (orient_convert 3 (pplane p)) (c :: l)) as (ys & Ey). { intros x I. rewrite Forall_forall in Fl. destruct (convert_def eps0 3 (pplane p) x (Fl x I)) as (y & Y & _). now exists y. }
    unfold point in *. rewrite Ey in E. cbn [obind] in E. match type of E with (if ?x then _ else _) = _ => destruct x end; discriminate.
  - exfalso. destruct O as [F Fl]. unfold i_pg_box, pg_box_with in E. destruct (pcorners p) as [|c l] eqn:El; [easy|]. rewrite orient_box_plane in E by auto.
    destruct (plane_box_spec (pplane p) b F V0 V1 T proper) as (q & Eq). unfold point in *. rewrite Eq in E. clear Eq. destruct (less_ _ _ _); [discriminate|]. cbn [obind] in E.
    destruct (map_ret_all (orient_convert 3 (pplane p)) (c :: l)) as (ys & Ey). { intros x I. rewrite Forall_forall in Fl. destruct (convert_def eps0 3 (pplane p) x (Fl x I)) as (y & Y & _). now exists y. }
    unfold point in *. rewrite Ey in E. cbn [obind] in E. match type of E with (if ?x then _ else _) = _ => destruct x end; discriminate.
Qed.
(** So the test that excludes the boundary never finds an intersection. *)
Lemma space_box_proper p b : pg_ok 3 p -> valid (pax0 (pplane p)) = true -> valid (pax1 (pplane p)) = true -> box_thick 3 b -> i_pg_box 3 p b true <> Ret true.
Proof.
  intros O V0 V1 T E. destruct (space_box_sound 3 p b true O) as (y & (u & _ & Y) & B); auto; [intros i Hi; specialize (T i Hi); lra|].
  assert (K : i_pg_box 3 p b true = Ret false); [|congruence]. apply space_box_misses; auto. exists u. intros i Hi. rewrite <- (Y i Hi). now apply B.
Qed.
Lemma Forall2_swap {A B} (P : A -> B -> Prop) l m : Forall2 P l m -> Forall2 (fun y x => P x y) m l.
Proof. induction 1; constructor; auto. Qed.
(** A box on the plane, above it, that a side of the polygon touches. *)
Lemma space_box_on p b : pg_ok 3 p -> valid (pax0 (pplane p)) = true -> valid (pax1 (pplane p)) = true -> box_thick 3 b ->
  (forall x, in_box 3 b x -> 0 <= height (pplane p) x) -> (exists u, on_boundary (pcorners p) u /\ in_box 3 b (placed (pplane p) u)) -> i_pg_box 3 p b false = Ret true.
Proof.
  intros O V0 V1 T Ab (u & (a0 & d0 & I0 & t & Ht & Et) & U). pose proof (ok_plane 3 p O) as Fl. unfold i_pg_box, pg_box_with. destruct (pcorners p) as [|c l] eqn:El; [destruct I0|]. rewrite <- El in *. clear El c l.
  rewrite orient_box_plane by (auto; apply O).
  destruct (plane_box_spec (pplane p) b (proj1 O) V0 V1 T false) as (q & Eq). unfold point in *. rewrite Eq. clear Eq.
  assert (L : 0 <= height (pplane p) (co (lowc (pplane p) b))) by (apply Ab; now apply low_in).
  assert (Q : less_ (height (pplane p) (co (lowc (pplane p) b))) 0 false = false) by (apply (less_false 0); change (0 - height (pplane p) (co (lowc (pplane p) b)) <= 0); lra).
  rewrite Q. cbn [obind]. destruct (map_ret_all (orient_convert 3 (pplane p)) (pcorners p)) as (cs & Ey). { intros x I. destruct (convert_def eps0 3 (pplane p) x (Fl x I)) as (y & Y & _). now exists y. }
  unfold point in *. rewrite Ey. cbn [obind]. assert (Ex : existsb (fun s : segment R => i_seg_box 3 s b false) (chain cs) = true); [|rewrite Ex; reflexivity].
  assert (F : Forall2 (fun x y : coords R => pteq 3 (co y) (placed (pplane p) (co x))) (pcorners p) cs).
  { pose proof (map_ret_rel _ _ _ Ey) as G. clear - G Fl. induction G as [|x y l m Q F IH]; [constructor|]. constructor.
    - destruct (convert_def eps0 3 (pplane p) x (Fl x (or_introl eq_refl))) as (c & Ec & _ & P). unfold point in *. assert (c = y) as -> by congruence. intros i Hi. rewrite (P i Hi). symmetry. exact (placed_at 3 (pplane p) (co x) i Hi).
    - apply IH. intros c I. apply Fl. now right. }
  destruct (sides_rel _ _ _ (Forall2_swap _ _ _ F) _ _ I0) as (a & d & I & Pa & Pd). destruct (side_chain cs a d I) as (s & Is & Es).
  apply existsb_exists. exists s. split; auto. apply (C44_box_exact 3 s b); [intros i Hi; specialize (T i Hi); lra|]. exists (placed (pplane p) u). split; auto.
  assert (K : pteq 3 (placed (pplane p) u) (fun i => (1 - t) * co a i + t * co d i)).
  { intros i Hi. rewrite (placed_ext 3 (pplane p) _ _ Et i Hi), (placed_mix 3 (pplane p) t (co a0) (co d0) i Hi), (Pa i Hi), (Pd i Hi). reflexivity. }
  destruct Es as [-> | ->].
  - exists t. split; auto.
  - exists (1 - t). split; [lra|]. intros i Hi. rewrite (K i Hi). unfold seg_at. cbn [end1 end2]. ring.
Qed.
