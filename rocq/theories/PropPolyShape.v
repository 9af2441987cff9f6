(** C58: polygons in the plane against points, balls, boxes, rotated boxes, segments and each other, in exact
    arithmetic.  [region] and [interior] (RegionSpec) are the sides with the inside and the inside alone, by the
    even-odd rule; the other sets are those of ShapeSpec. *)
From Coq Require Import ZArith NArith Reals Bool List Lia Lra Psatz Classical.
From Flocq Require Import Core.Raux.
From Verif Require Import Base Scalar ConstModel VecModel RotModel QuatModel ShapeModel IntersectModel PolyModel PolyIntersectModel RSpec VecSpec RotSpec ShapeSpec EvenOddSpec RegionSpec RLib OrdLib VecProofs VecProofs4 ConstProofs ShapeProofs ShapeProofs2 ShapeProofs3 BallProofs RbProofs SegProofs SegProofs2 SegProofs3 SegProofs4 EvenOddProofs RegionProofs PolyShapeProofs PolyShapeProofs2 PolyBoxProofs PolyBoxProofs2 PolyRbProofs PropPolyPoint PropSeg PropRotBox.
Import ListNotations.
Open Scope R_scope.
#[local] Existing Instance Rnum | 0.
#[local] Existing Instance eps0.

(** * Tools for the concrete cases *)
Definition P2 (x y : R) : coords R := mkC [x; y] true.
Ltac rbool := repeat match goal with |- context [Rlt_bool ?x ?y] => first [rewrite (Rlt_bool_true x y) by lra | rewrite (Rlt_bool_false x y) by lra] end.
Ltac on_sides I := unfold sides in I; cbn [app combine In] in I; decompose [or] I; clear I; try contradiction.
Ltac off_boundary := let a := fresh "a" in let b := fresh "b" in let I := fresh "I" in let s := fresh "s" in let S0 := fresh "S0" in let E := fresh "E" in let E0 := fresh "E0" in let E1 := fresh "E1" in
  intros (a & b & I & s & S0 & E); pose proof (E 0%nat ltac:(lia)) as E0; pose proof (E 1%nat ltac:(lia)) as E1; clear E; on_sides I;
  match goal with H : (_, _) = (a, b) |- _ => injection H as <- <- end; unfold P2, co in E0, E1; cbn in E0, E1; lra.
Ltac side_at a b t := exists a, b; split; [unfold sides; cbn [app combine In]; tauto|exists t; split; [lra|intros [|[|i]] Hi; [unfold P2, co; cbn; lra|unfold P2, co; cbn; lra|lia]]].
Ltac parity_now := rewrite <- parity_passes; unfold par, sides; cbn [app combine fold_right]; unfold passes; rewrite !spans_R; unfold P2; cbn [fst snd co el nth];
  rbool; cbn [xorb andb]; rewrite ?cut_R; cbn [fst snd co el nth]; unfold at_; cbn [get nth el nltb Rnum]; rbool; reflexivity.
Ltac in_interior := apply interior_parity; split; [off_boundary|parity_now].
Ltac out_region := let R' := fresh "R'" in intros [R'|R']; [revert R'; off_boundary|apply interior_parity in R'; destruct R' as [_ R'];
  match type of R' with ?x = true => assert (Z0 : x = false) by parity_now; congruence end].

Definition box01 : axisbox R := mkB (P2 0 0) (P2 1 1).
Lemma box01_thick : box_thick 2 box01.
Proof. intros [|[|i]] Hi; [cbn; lra|cbn; lra|lia]. Qed.
Definition triangle : list (coords R) := [P2 0 0; P2 4 0; P2 0 4].

(** * Points *)
(** Inside and outside are told apart whatever [proper]; no call on a polygon with corners crashes. *)
Theorem C58_point : forall l (p : point R) proper, l <> [] ->
  (exists r, i_pg2_point (H := Rnum 0) l p proper = Ret r) /\
  (interior l (co p) -> i_pg2_point (H := Rnum 0) l p proper = Ret true) /\
  (~ region l (co p) -> i_pg2_point (H := Rnum 0) l p proper = Ret false).
Proof. intros l p proper Nn. split; [now apply point_ret|]. split; [now apply point_interior|now apply point_outside]. Qed.
Example C58_point_example : interior notched (co (P2 1 1)) /\ ~ region notched (co (P2 2 2)).
Proof. split; [unfold notched; in_interior|unfold notched; out_region]. Qed.
(** A point on a side that is not horizontal, other than its upper end, is in the polygon unless [proper] is set. *)
Theorem C58_point_boundary_partial : forall l (p : point R) a b proper, In (a, b) (sides l) -> on_side (co a) (co b) (co p) ->
  (co a 1%nat <= co p 1%nat < co b 1%nat \/ co b 1%nat <= co p 1%nat < co a 1%nat) ->
  i_pg2_point (H := Rnum 0) l p proper = Ret (negb proper).
Proof.
  intros l p a b proper. apply point_on_side.
Qed.
Example C58_point_boundary_example : In (P2 4 4, P2 2 1) (sides notched) /\ on_side (co (P2 4 4)) (co (P2 2 1)) (co (P2 2 1)) /\ co (P2 2 1) 1%nat <= co (P2 2 1) 1%nat < co (P2 4 4) 1%nat.
Proof. split; [unfold notched, sides, P2; cbn [app combine In]; tauto|]. split; [|unfold co, P2; cbn; lra]. exists 1. split; [lra|]. intros i Hi. ring. Qed.
(** The rest of the boundary is not: the middle of the top of a square is not in it, and the middle of its bottom is in it
    even when the boundary is excluded. *)
Theorem C58_point_boundary_refuted : let l := rectangle 0 0 4 4 in
  on_boundary l (co (P2 2 4)) /\ i_pg2_point (H := Rnum 0) l (P2 2 4) false = Ret false /\
  on_boundary l (co (P2 2 0)) /\ i_pg2_point (H := Rnum 0) l (P2 2 0) true = Ret true.
Proof.
  cbv zeta. unfold rectangle. split; [side_at (mkC [4; 4] true) (mkC [0; 4] true) (1 / 2)|]. split; [|split; [side_at (mkC [0; 0] true) (mkC [4; 0] true) (1 / 2)|]].
  - rewrite (point_sides 0) by discriminate. match goal with |- context [existsb ?f ?s] => replace (existsb f s) with false end.
    + f_equal. rewrite parity_passes. parity_now.
    + unfold sides. cbn [app combine existsb]. unfold touches. rewrite !spans_R. unfold P2. cbn [fst snd co el nth]. rbool. reflexivity.
  - rewrite (point_sides 0) by discriminate. match goal with |- context [existsb ?f ?s] => replace (existsb f s) with false end.
    + f_equal. rewrite parity_passes. parity_now.
    + symmetry. apply not_true_is_false. intros X. apply existsb_exists in X. destruct X as ([a b] & I & X). unfold touches in X. apply andb_true_iff in X. destruct X as [Sp X].
      apply equal_R_exact0 in X. rewrite cut_R in X. unfold at_, P2 in X. cbn [get nth el] in X. rewrite spans_R in Sp. unfold P2 in Sp.
      on_sides I; match goal with H : (_, _) = (a, b) |- _ => injection H as <- <- end; cbn [fst snd co el nth] in Sp, X;
      first [revert Sp; rbool; discriminate | lra].
Qed.
(** A polygon inside a point: only when all of it is that point; never properly. *)
Theorem C58_in_point : forall l (p : point R), l <> [] -> dims 2 p -> valid p = true -> Forall (fun c => dims 2 c /\ valid c = true) l ->
  (c_point_pg2 (H := Rnum 0) p l false = true <-> incl (region l) (pteq 2 (co p))) /\ c_point_pg2 (H := Rnum 0) p l true = false.
Proof.
  intros l p Nn Dp Vp F. rewrite Forall_forall in F. split; [|destruct l; [easy|reflexivity]]. unfold c_point_pg2. rewrite forallb_forall, <- (halves_region _ l (pt_halves (co p))).
  split; intros C q I; specialize (C q I); destruct (F q I) as [Dq Vq]; [apply same_pt in C|apply same_pt]; auto.
Qed.

(** * Balls *)
Theorem C58_ball : forall l (b : ball R), l <> [] -> 0 < radius b ->
  (exists r, i_pg2_ball (H := Rnum 0) l b false = Ret r /\ (r = true <-> meet (region l) (in_ball 2 b))) /\
  (exists r, i_pg2_ball (H := Rnum 0) l b true = Ret r /\ (r = true <-> meet (region l) (in_ball_open 2 b))).
Proof. intros l b Nn Hr. split; [apply pg2_ball; auto; lra|now apply pg2_ball_proper]. Qed.
(** The ball inside the polygon: properly, when it avoids the boundary.  Without [proper], never when it sticks out, always when
    it is inside; a ball that touches the boundary from inside is in between. *)
Theorem C58_contains_ball : forall l (b : ball R), l <> [] -> 0 <= radius b ->
  (exists r, c_pg2_ball (H := Rnum 0) l b false = Ret r /\ (r = true -> incl (in_ball 2 b) (region l)) /\ (incl (in_ball 2 b) (interior l) -> r = true)) /\
  (exists r, c_pg2_ball (H := Rnum 0) l b true = Ret r /\ (r = true <-> incl (in_ball 2 b) (interior l))).
Proof. intros l b Nn Hr. split; [now apply pg2_has_ball|now apply pg2_has_ball_proper]. Qed.
Theorem C58_in_ball : forall l (b : ball R), 0 <= radius b ->
  (c_ball_pg2 (H := Rnum 0) b l false = true <-> incl (region l) (in_ball 2 b)) /\ (c_ball_pg2 (H := Rnum 0) b l true = true <-> incl (region l) (in_ball_open 2 b)).
Proof. intros l b Hr. now apply ball_has_pg2. Qed.
Definition small_ball (x y : R) : ball R := mkBall (P2 x y) (1 / 2).
Example C58_ball_example : triangle <> [] /\ 0 < radius (small_ball 0 0) /\ meet (region triangle) (in_ball_open 2 (small_ball 0 0)) /\
  ~ meet (region triangle) (in_ball 2 (small_ball 3 3)) /\ incl (region triangle) (in_ball_open 2 (mkBall (P2 1 1) 5)).
Proof.
  split; [discriminate|]. split; [cbn; lra|]. split; [|split].
  - exists (co (P2 0 0)). split; [left; unfold triangle; side_at (P2 0 0) (P2 4 0) 0|]. apply in_ball_open_sqr; [cbn; lra|]. unfold dist2, norm2, inner, co. cbn. lra.
  - intros (x & Rx & Bx). apply in_ball_sqr in Bx; [|cbn; lra]. unfold dist2, norm2, inner, co in Bx. cbn in Bx.
    assert (ldot (1, 1) x <= 4). { apply (region_half triangle); auto. intros c [<-|[<-|[<-|[]]]]; unfold ldot, co; cbn; lra. }
    unfold ldot in *. cbn in *. pose proof (Rle_0_sqr (x 0%nat - x 1%nat)) as Q1. unfold Rsqr in Q1. pose proof (Rmult_le_pos (4 - x 0%nat - x 1%nat) (8 - x 0%nat - x 1%nat) ltac:(lra) ltac:(lra)). lra.
  - apply (proj2 (ball_has_pg2 triangle (mkBall (P2 1 1) 5) ltac:(cbn; lra))). unfold c_ball_pg2. apply forallb_forall. intros c I. rewrite negb_true_iff.
    rewrite (greater_proper 0), (sqd0 2). unfold dist2, norm2, inner. destruct I as [<-|[<-|[<-|[]]]]; unfold co; cbn; lra.
Qed.

(** * Boxes *)
Theorem C58_in_box : forall l (b : axisbox R),
  (c_box_pg2 (H := Rnum 0) b l false = true <-> incl (region l) (in_box 2 b)) /\ (c_box_pg2 (H := Rnum 0) b l true = true <-> incl (region l) (in_box_open 2 b)).
Proof. intros l b. apply box_has_pg2. Qed.
(** Missing: a polygon all of whose corners are in the box (see C58_box_inside_refuted), one that only touches the box, and
    what [proper] changes (C58_box_touching_refuted, C58_box_proper_refuted). *)
Theorem C58_box_partial : forall l (b : axisbox R), l <> [] -> box_thick 2 b ->
  (exists r, i_pg2_box (H := Rnum 0) l b false = Ret r) /\
  (i_pg2_box (H := Rnum 0) l b false = Ret true -> meet (region l) (in_box 2 b)) /\
  (meet (region l) (in_box_open 2 b) -> (exists c, In c l /\ ~ in_box 2 b (co c)) -> i_pg2_box (H := Rnum 0) l b false = Ret true).
Proof.
  intros l b Nn Th. assert (O : box_ordered 2 b) by (intros i Hi; apply Rlt_le; auto). split; [destruct (box_result l b Nn O) as (r & E & _); eauto|].
  split; [now apply pg2_box_sound|now apply pg2_box_complete].
Qed.
Example C58_box_example : box_thick 2 box01 /\ meet (region triangle) (in_box_open 2 box01) /\ (exists c, In c triangle /\ ~ in_box 2 box01 (co c)).
Proof.
  split; [apply box01_thick|]. split.
  - exists (co (P2 (1 / 2) (1 / 2))). split; [right; unfold triangle; in_interior|]. intros [|[|i]] Hi; [unfold co; cbn; lra|unfold co; cbn; lra|lia].
  - exists (P2 4 0). split; [cbn; tauto|]. intros B. specialize (B 0%nat ltac:(lia)). unfold co in B. cbn in B. lra.
Qed.
(** Every polygon lying inside the box, not touching its low sides: the two have all of the polygon in common, and the
    answer is no. *)
Theorem C58_box_inside_refuted : forall l (b : axisbox R), l <> [] -> box_ordered 2 b ->
  (forall c, In c l -> forall i, (i < 2)%nat -> co (low b) i < co c i <= co (high b) i) ->
  incl (region l) (in_box 2 b) /\ meet (region l) (in_box 2 b) /\ i_pg2_box (H := Rnum 0) l b false = Ret false.
Proof.
  intros l b Nn O C.
  assert (I : incl (region l) (in_box 2 b)).
  { apply (halves_region _ l (box_halves b)). intros c Ic i Hi. specialize (C c Ic i Hi). lra. }
  split; auto. split.
  - destruct l as [|c l]; [easy|]. exists (co c). assert (B : region (c :: l) (co c)) by (left; apply corner_region; cbn; auto). split; auto.
  - apply pg2_box_inside; auto. intros c Ic. unfold uppers, upper. split; [apply (C c Ic 0%nat)|apply (C c Ic 1%nat)]; lia.
Qed.
Example C58_box_inside_example : exists l b, l <> [] /\ box_ordered 2 b /\ (forall c, In c l -> forall i, (i < 2)%nat -> co (low b) i < co c i <= co (high b) i).
Proof.
  exists triangle, (mkB (P2 (-1) (-1)) (P2 5 5)). split; [discriminate|]. split; [intros [|[|i]] Hi; [cbn; lra|cbn; lra|lia]|].
  intros c [<-|[<-|[<-|[]]]] [|[|i]] Hi; try lia; unfold co; cbn; lra.
Qed.

(** A polygon left of the box that touches its left side at one point is not found. *)
Lemma no_cuts l b : (forall i j, In (i, j) (sides l) -> ~ cuts b (i, j)) -> ~ (exists e, In e (sides l) /\ cuts b e).
Proof. intros N ([i j] & I & C). exact (N i j I C). Qed.
Ltac uncut := let i := fresh "i" in let j := fresh "j" in let I := fresh "I" in let C := fresh "C" in
  apply no_cuts; intros i j I C; unfold cuts, trig, betw, cutv in C; on_sides I;
  match goal with H : (_, _) = (i, j) |- _ => injection H as <- <- end; unfold P2, co in C; cbn in C; lra.
Definition left_tip : list (coords R) := [P2 (-1) 0; P2 0 (1 / 2); P2 (-1) 1].
Theorem C58_box_touching_refuted : box_thick 2 box01 /\ meet (region left_tip) (in_box 2 box01) /\ i_pg2_box (H := Rnum 0) left_tip box01 false = Ret false.
Proof.
  split; [apply box01_thick|]. split.
  - exists (co (P2 0 (1 / 2))). split; [left; apply corner_region; cbn; tauto|]. intros [|[|i]] Hi; [unfold co; cbn; lra|unfold co; cbn; lra|lia].
  - assert (O : box_ordered 2 box01) by (intros i Hi; apply Rlt_le, box01_thick; auto). destruct (box_result left_tip box01 ltac:(discriminate) O) as (r & E & Q).
    change (i_pg2_box left_tip box01 false = Ret false). rewrite E. f_equal. apply not_true_is_false. intros ->. destruct (proj1 Q eq_refl) as [K|[_ P]].
    + revert K. unfold left_tip, box01. uncut.
    + assert (Z0 : parity (co (low box01)) right left_tip = false) by (unfold left_tip, box01; cbn [low]; parity_now). congruence.
Qed.
(** With [proper]: a polygon equal to the box is not found, and one above the box that touches its upper side is. *)
Lemma cut_corner lo hi c p : c = lo \/ c = hi -> box_cut lo hi c p = Some (negb p).
Proof.
  intros C. unfold box_cut. replace (equal lo c neps || equal hi c neps) with true; auto. symmetry. apply orb_true_iff.
  destruct C as [-> | ->]; [left|right]; apply (equal_R_exact0 eps0); reflexivity.
Qed.
Lemma cut_strict lo hi c p : lo < c < hi -> box_cut lo hi c p = Some true.
Proof.
  intros C. unfold box_cut. replace (equal lo c neps || equal hi c neps) with false.
  - cbn [nltb Rnum]. rewrite !Rlt_bool_true by lra. reflexivity.
  - symmetry. apply not_true_is_false. intros E. apply orb_true_iff in E. destruct E as [E|E]; apply equal_R_exact0 in E; lra.
Qed.
Lemma between_no a y b : ~ betw a y b -> between a y b = false.
Proof. intros N. apply not_true_is_false. now rewrite between_R. Qed.
Lemma between_yes a y b : betw a y b -> between a y b = true.
Proof. apply between_R. Qed.
Ltac betweens := repeat match goal with |- context [between ?a ?y ?b] => first [rewrite (between_no a y b) by (unfold betw; lra) | rewrite (between_yes a y b) by (unfold betw; lra)] end.
Definition square01 : list (coords R) := [P2 0 0; P2 1 0; P2 1 1; P2 0 1].
Definition top_tip : list (coords R) := [P2 (1 / 2) 1; P2 0 2; P2 1 2].
Theorem C58_box_proper_refuted : box_thick 2 box01 /\
  meet (interior square01) (in_box_open 2 box01) /\ i_pg2_box (H := Rnum 0) square01 box01 true = Ret false /\
  ~ meet (region top_tip) (in_box_open 2 box01) /\ i_pg2_box (H := Rnum 0) top_tip box01 true = Ret true.
Proof.
  split; [apply box01_thick|]. split; [|split; [|split]].
  - exists (co (P2 (1 / 2) (1 / 2))). split; [unfold square01; in_interior|]. intros [|[|i]] Hi; [unfold co; cbn; lra|unfold co; cbn; lra|lia].
  - change (i_pg2_box square01 box01 true = Ret false). unfold i_pg2_box, square01, box01, edges. cbn [last edges_from low high pg2_box_loop]. f_equal. unfold P2, at_. cbn [get el nth nsub nadd nmul ndiv Rnum].
    betweens. rewrite (cut_corner 0 1) by lra. reflexivity.
  - intros (x & X & B). specialize (B 1%nat ltac:(lia)). assert (ldot (0, -1) x <= -1). { apply (region_half top_tip); auto. intros c [<-|[<-|[<-|[]]]]; unfold ldot, co; cbn; lra. }
    unfold ldot, co in *. cbn in *. lra.
  - change (i_pg2_box top_tip box01 true = Ret true). unfold i_pg2_box, top_tip, box01, edges. cbn [last edges_from low high pg2_box_loop]. f_equal. unfold P2, at_. cbn [get el nth nsub nadd nmul ndiv Rnum].
    betweens. cbn [orb_]. rewrite (cut_strict 0 1) by lra. reflexivity.
Qed.

(** The box inside the polygon.  With [proper] a yes means that the box is in the region and its inside away from the boundary,
    and a box away from the boundary is found; without, the same as long as no corner of the box is on the boundary. *)
Theorem C58_contains_box_partial : forall l (b : axisbox R), l <> [] -> box_thick 2 b -> forall proper,
  (exists r, c_pg2_box (H := Rnum 0) l b proper = Ret r) /\
  (proper = true \/ (forall x, (forall i, (i < 2)%nat -> x i = co (low b) i \/ x i = co (high b) i) -> ~ on_boundary l x) ->
   (c_pg2_box (H := Rnum 0) l b proper = Ret true -> incl (in_box 2 b) (region l) /\ incl (in_box_open 2 b) (interior l)) /\
   (incl (in_box 2 b) (interior l) -> c_pg2_box (H := Rnum 0) l b proper = Ret true)).
Proof.
  intros l b Nn Th proper. assert (O : box_ordered 2 b) by (intros i Hi; apply Rlt_le; auto).
  split; [unfold c_pg2_box; destruct l; [easy|eauto]|]. intros Q.
  assert (E : c_pg2_box (H := Rnum 0) l b proper = c_pg2_box (H := Rnum 0) l b true). { destruct proper; auto. destruct Q as [Q|Q]; [discriminate|]. now apply has_box_corners. }
  rewrite E. split; [now apply pg2_has_box_sound|now apply pg2_has_box_complete].
Qed.
Example C58_contains_box_example : incl (in_box 2 (mkB (P2 1 1) (P2 (3 / 2) 2))) (interior triangle).
Proof.
  intros x B. pose proof (B 0%nat ltac:(lia)) as B0. pose proof (B 1%nat ltac:(lia)) as B1. unfold co in B0, B1. cbn in B0, B1.
  apply (interior_eq _ (co (P2 (x 0%nat) (x 1%nat)))); [intros [|[|i]] Hi; [reflexivity|reflexivity|lia]|]. unfold triangle.
  apply interior_parity. split; [off_boundary|].
  rewrite <- parity_passes; unfold par, sides; cbn [app combine fold_right]; unfold passes; rewrite !spans_R; unfold P2; cbn [fst snd co el nth]; rbool; cbn [xorb andb]; rewrite ?cut_R; cbn [fst snd co el nth]; unfold at_; cbn [get nth el nltb Rnum].
  rewrite (Rlt_bool_true (x 0%nat)) by lra. rewrite Rlt_bool_false by lra. reflexivity.
Qed.
(** A side of the polygon through two opposite corners of the box is not noticed without [proper]: half of the box is outside. *)
Definition half_plane_triangle : list (coords R) := [P2 (-1) (-1); P2 2 2; P2 2 (-1)].
Lemma cut_c_none lo hi c : lo <= hi -> ~ lo < c < hi -> box_cut_c lo hi c false = None.
Proof.
  intros O N. unfold box_cut_c. cbv zeta. rewrite andb_false_r. cbn [nltb Rnum]. destruct (equal lo c neps || equal hi c neps); auto. cbn [negb andb].
  destruct (Rlt_bool_spec lo c), (Rlt_bool_spec c hi); auto. lra.
Qed.
Ltac cuts_c := repeat match goal with |- context [box_cut_c ?lo ?hi ?c false] => rewrite (cut_c_none lo hi c) by lra end.
Theorem C58_contains_box_refuted : box_thick 2 box01 /\ in_box_open 2 box01 (co (P2 (1 / 3) (2 / 3))) /\ ~ region half_plane_triangle (co (P2 (1 / 3) (2 / 3))) /\
  c_pg2_box (H := Rnum 0) half_plane_triangle box01 false = Ret true.
Proof.
  split; [apply box01_thick|]. split; [intros [|[|i]] Hi; [unfold co; cbn; lra|unfold co; cbn; lra|lia]|]. split; [unfold half_plane_triangle; out_region|].
  change (c_pg2_box half_plane_triangle box01 false = Ret true). unfold c_pg2_box, half_plane_triangle, box01, edges. cbn [last edges_from low high pg2_box_loop_c]. f_equal. unfold P2, at_. cbn [get el nth nsub nadd nmul ndiv Rnum].
  betweens. cuts_c. cbn [orb_ andb].
  assert (Eq : forall a b, a = b -> equal a b neps = true) by (intros a b Eab; now apply (equal_R_exact0 eps0)).
  assert (Ne : forall a b, a <> b -> equal a b neps = false) by (intros a b Nab; apply not_true_is_false; intros X; apply equal_R_exact0 in X; lra).
  repeat match goal with |- context [equal ?a ?b neps] => first [rewrite (Eq a b) by lra | rewrite (Ne a b) by lra] end. cbn [orb negb andb nltb Rnum]. rbool. reflexivity.
Qed.
(** With [proper], a notch of the polygon whose tip touches the left side of the box is not noticed, although the tip is a
    boundary point of the polygon in the box. *)
Definition left_notch : list (coords R) := [P2 (-3) (-3); P2 3 (-3); P2 3 3; P2 (-3) 3; P2 (-3) 1; P2 0 (1 / 2); P2 (-3) 0].
Theorem C58_contains_box_proper_refuted : box_thick 2 box01 /\ in_box 2 box01 (co (P2 0 (1 / 2))) /\ on_boundary left_notch (co (P2 0 (1 / 2))) /\
  c_pg2_box (H := Rnum 0) left_notch box01 true = Ret true.
Proof.
  split; [apply box01_thick|]. split; [intros [|[|i]] Hi; [unfold co; cbn; lra|unfold co; cbn; lra|lia]|]. split; [apply corner_region; cbn; tauto|].
  assert (O : box_ordered 2 box01) by (intros i Hi; apply Rlt_le, box01_thick; auto). destruct (box_result_c left_notch box01 ltac:(discriminate) O) as (r & E & Q).
  change (c_pg2_box left_notch box01 true = Ret true). rewrite E. f_equal. apply Q. split.
  - unfold left_notch, box01. uncut.
  - unfold left_notch, box01. cbn [low]. parity_now.
Qed.

(** * Rotated boxes *)
Theorem C58_in_rotbox : forall l (r : rotbox R), orthogonal 2 (ent (orient r)) ->
  (c_rb_pg2 (H := Rnum 0) r l false = true <-> incl (region l) (in_rotbox 2 r)) /\
  (rb_thick 2 r -> (c_rb_pg2 (H := Rnum 0) r l true = true <-> incl (region l) (in_rotbox_open 2 r))).
Proof. intros l r O. now apply rb_has_pg2. Qed.
(** Missing: the same as for boxes. *)
Theorem C58_rotbox_partial : forall l (r : rotbox R), l <> [] -> orthogonal 2 (ent (orient r)) -> rb_thick 2 r ->
  (exists a, i_pg2_rb (H := Rnum 0) l r false = Ret a) /\
  (i_pg2_rb (H := Rnum 0) l r false = Ret true -> meet (region l) (in_rotbox 2 r)) /\
  (meet (region l) (in_rotbox_open 2 r) -> (exists c, In c l /\ ~ in_rotbox 2 r (co c)) -> i_pg2_rb (H := Rnum 0) l r false = Ret true).
Proof.
  intros l r Nn O Th. split; [unfold i_pg2_rb; destruct l; [easy|eauto]|]. split; [now apply pg2_rb_sound|now apply pg2_rb_complete].
Qed.
Theorem C58_contains_rotbox_partial : forall l (r : rotbox R), l <> [] -> orthogonal 2 (ent (orient r)) -> rb_thick 2 r -> forall proper,
  (exists a, c_pg2_rb (H := Rnum 0) l r proper = Ret a) /\
  (proper = true \/ (forall x s, (forall k, (k < 2)%nat -> s k = 0 \/ s k = 1) -> pteq 2 x (rb_at 2 r s) -> ~ on_boundary l x) ->
   (c_pg2_rb (H := Rnum 0) l r proper = Ret true -> incl (in_rotbox 2 r) (region l) /\ incl (in_rotbox_open 2 r) (interior l)) /\
   (incl (in_rotbox 2 r) (interior l) -> c_pg2_rb (H := Rnum 0) l r proper = Ret true)).
Proof.
  intros l r Nn O Th proper. split; [unfold c_pg2_rb; destruct l; [easy|eauto]|]. intros Q.
  assert (E : c_pg2_rb (H := Rnum 0) l r proper = c_pg2_rb (H := Rnum 0) l r true). { destruct proper; auto. destruct Q as [Q|Q]; [discriminate|]. apply (has_rb_corners r O). intros x (s & S & X). now apply (Q x s). }
  rewrite E. split; [now apply pg2_has_rb_sound|now apply pg2_has_rb_complete].
Qed.
Definition rb_poly : list (coords R) := [P2 (rb_at 2 rb345 (fun _ => 1/2) 0%nat) (rb_at 2 rb345 (fun _ => 1/2) 1%nat); P2 1000 0; P2 1000 1].
Example C58_rotbox_example : orthogonal 2 (ent (orient rb345)) /\ rb_thick 2 rb345 /\ meet (region rb_poly) (in_rotbox_open 2 rb345) /\ (exists c, In c rb_poly /\ ~ in_rotbox 2 rb345 (co c)).
Proof.
  destruct rb345_proper as ([V O] & Th & _). split; auto. split; auto. split.
  - exists (rb_at 2 rb345 (fun _ => 1/2)). split; [|exact (proj2 C45_point_example)]. apply (region_eq _ (co (hd (P2 0 0) rb_poly))); [|left; apply corner_region; cbn [rb_poly hd In]; auto].
    intros [|[|i]] Hi; [reflexivity|reflexivity|lia].
  - exists (P2 1000 0). split; [cbn; tauto|]. intros (s & S & E). specialize (E 0%nat ltac:(lia)). pose proof (S 0%nat ltac:(lia)) as S0. pose proof (S 1%nat ltac:(lia)) as S1.
    unfold rb_at, co, P2 in E. cbn in E. lra.
Qed.

(** * Segments *)
Theorem C58_in_segment : forall l (s : segment R),
  (c_seg_pg2 (H := Rnum 0) s l false = true <-> incl (region l) (in_segment 2 s)) /\
  (different_ends 2 s -> (c_seg_pg2 (H := Rnum 0) s l true = true <-> incl (region l) (in_segment_open 2 s))).
Proof. intros l s. split; [apply seg_has_pg2|intros D; now apply seg_has_pg2_proper]. Qed.
(** Missing: a segment whose first end is not inside (C58_segment_refuted). *)
Theorem C58_segment_partial : forall l (s : segment R) proper, l <> [] ->
  (exists r, i_pg2_seg (H := Rnum 0) l s proper = Ret r) /\ (interior l (co (end1 s)) -> i_pg2_seg (H := Rnum 0) l s proper = Ret true).
Proof.
  intros l s proper Nn. split.
  - destruct (point_ret l (end1 s) proper Nn) as (c & E). unfold i_pg2_seg. change (i_pg2_point (H := Rnum 0) l (end1 s) proper = Ret c) in E. rewrite E. cbn [obind]. eauto.
  - intros I. apply (point_interior l (end1 s) proper) in I. unfold i_pg2_seg. change (i_pg2_point (H := Rnum 0) l (end1 s) proper = Ret true) in I. rewrite I. reflexivity.
Qed.
Lemma seg_seg_plane x1 y1 x2 y2 x3 y3 x4 y4 t s proper : let D := (x2 - x1) * (y4 - y3) - (y2 - y1) * (x4 - x3) in
  D <> 0 -> x1 + t * (x2 - x1) = x3 + s * (x4 - x3) -> y1 + t * (y2 - y1) = y3 + s * (y4 - y3) ->
  i_seg_seg 2 (mkS (P2 x1 y1) (P2 x2 y2)) (mkS (P2 x3 y3) (P2 x4 y4)) proper = less_eq_ t 0 proper && less_eq_ t 1 proper && greater_eq_ s 0 proper && greater_eq_ s 1 proper.
Proof.
  intros D N X Y. apply (seg_seg_crossing 2 _ _ t s (fun i => match i with O => x1 + t * (x2 - x1) | _ => y1 + t * (y2 - y1) end)).
  - unfold norm2, inner, dir, co. cbn. pose proof (Rsqr_pos_lt D N) as P. unfold Rsqr, D in P. lra.
  - intros [|[|i]] Hi; [unfold seg_at, co; cbn; lra|unfold seg_at, co; cbn; lra|lia].
  - intros [|[|i]] Hi; [unfold seg_at, co; cbn; lra|unfold seg_at, co; cbn; lra|lia].
Qed.
(** Where the lines meet, by Cramer's rule. *)
Lemma seg_seg_at x1 y1 x2 y2 x3 y3 x4 y4 proper : let D := (x2 - x1) * (y4 - y3) - (y2 - y1) * (x4 - x3) in let t := ((x3 - x1) * (y4 - y3) - (y3 - y1) * (x4 - x3)) / D in let s := ((x3 - x1) * (y2 - y1) - (y3 - y1) * (x2 - x1)) / D in
  D <> 0 -> 0 < t \/ s < 1 ->
  i_seg_seg 2 (mkS (P2 x1 y1) (P2 x2 y2)) (mkS (P2 x3 y3) (P2 x4 y4)) proper = false.
Proof.
  intros D t s N Q. rewrite (seg_seg_plane x1 y1 x2 y2 x3 y3 x4 y4 t s proper); auto; [|unfold t, s, D in *; field; auto|unfold t, s, D in *; field; auto].
  apply not_true_iff_false. rewrite !andb_true_iff. intros [[[A _] _] B]. destruct proper; [apply less_eq_proper in A; apply greater_eq_proper in B|apply (less_eq_false 0) in A; apply (greater_eq_false 0) in B]; cbn in A, B; lra.
Qed.
Ltac no_seg := repeat match goal with |- context [i_seg_seg 2 (mkS (P2 ?a ?b) (P2 ?c ?d)) (mkS (P2 ?e ?f) (P2 ?g ?h)) ?p] => rewrite (seg_seg_at a b c d e f g h p) by lra end.
(** A segment that goes through the triangle from side to side is not found. *)
Theorem C58_segment_refuted : let s := mkS (P2 (-1) 2) (P2 5 (1 / 2)) in meet (interior triangle) (in_segment_open 2 s) /\ forall proper, i_pg2_seg (H := Rnum 0) triangle s proper = Ret false.
Proof.
  cbv zeta. split.
  - exists (co (P2 1 (3 / 2))). split; [unfold triangle; in_interior|]. exists (1 / 3). split; [lra|]. pt2.
  - intros proper. change (i_pg2_seg triangle (mkS (P2 (-1) 2) (P2 5 (1 / 2))) proper = Ret false). unfold i_pg2_seg. cbn [end1]. unfold point in *. rewrite point_outside; [|discriminate|unfold triangle; out_region].
    cbn [obind]. unfold triangle, chain. cbn [last chain_from negb existsb]. no_seg. reflexivity.
Qed.
(** A segment away from the polygon that is found. *)
Definition apart_triangle : list (coords R) := [P2 0 1; P2 0 2; P2 (-1) 1].
Theorem C58_segment_false_positive_refuted : let s := mkS (P2 1 0) (P2 2 0) in ~ meet (region apart_triangle) (in_segment 2 s) /\ i_pg2_seg (H := Rnum 0) apart_triangle s false = Ret true.
Proof.
  cbv zeta. split.
  - intros (x & X & (t & Ht & E)). assert (Hx : ldot (1, 0) x <= 0). { apply (region_half apart_triangle); auto. intros c [<-|[<-|[<-|[]]]]; unfold ldot, co; cbn; lra. }
    specialize (E 0%nat ltac:(lia)). unfold seg_at, co, ldot in *. cbn in *. lra.
  - change (i_pg2_seg apart_triangle (mkS (P2 1 0) (P2 2 0)) false = Ret true). unfold i_pg2_seg. cbn [end1]. unfold point in *. rewrite point_outside; [|discriminate|unfold apart_triangle; out_region].
    cbn [obind]. unfold apart_triangle, chain. cbn [last chain_from negb existsb]. rewrite (seg_seg_plane 1 0 2 0 0 2 0 1 (-1) 2) by lra.
    replace (less_eq_ (-1) 0 false && less_eq_ (-1) 1 false && greater_eq_ 2 0 false && greater_eq_ 2 1 false) with true; [cbn [orb]; now rewrite orb_true_r|].
    symmetry. rewrite !andb_true_iff, !(less_eq_false 0), !(greater_eq_false 0). cbn. lra.
Qed.
(** A segment that leaves the polygon is said to be inside it. *)
Lemma seg_point_off x1 y1 x2 y2 a b : (a - x1) * (y2 - y1) <> (b - y1) * (x2 - x1) -> i_seg_point 2 (mkS (P2 x1 y1) (P2 x2 y2)) (P2 a b) false = false.
Proof.
  intros N. apply not_true_is_false. intros E. apply (seg_point 2) in E. destruct E as (t & Ht & E). pose proof (E 0%nat ltac:(lia)) as E0. specialize (E 1%nat ltac:(lia)).
  unfold seg_at, co, P2 in *. cbn in *. apply N. rewrite E0, E. ring.
Qed.
Lemma equal_no a b : a <> b -> equal a b neps = false.
Proof. intros N. apply not_true_is_false. intros X. apply equal_R_exact0 in X. lra. Qed.
Ltac seg_step := cbn [pg2_seg_loop negb end1 end2]; no_seg; repeat match goal with |- context [i_seg_point 2 (mkS (P2 ?a ?b) (P2 ?c ?d)) (P2 ?e ?f) false] => rewrite (seg_point_off a b c d e f) by lra end;
  cbn [andb]; unfold P2, at_; cbn [get el nth nsub nadd nmul ndiv nltb Rnum end1 end2]; betweens; cbn [negb].
Theorem C58_contains_segment_refuted : let s := mkS (P2 1 1) (P2 5 4) in ~ incl (in_segment 2 s) (region triangle) /\ c_pg2_seg (H := Rnum 0) triangle s false = Ret true.
Proof.
  cbv zeta. split.
  - intros I. assert (X : in_segment 2 (mkS (P2 1 1) (P2 5 4)) (co (P2 5 4))) by (exists 1; split; [lra|pt2]). apply I in X.
    assert (Hx : ldot (1, 0) (co (P2 5 4)) <= 4). { apply (region_half triangle); auto. intros c [<-|[<-|[<-|[]]]]; unfold ldot, co; cbn; lra. } unfold ldot, co in Hx. cbn in Hx. lra.
  - change (c_pg2_seg triangle (mkS (P2 1 1) (P2 5 4)) false = Ret true). unfold c_pg2_seg, triangle. cbn [obind last].
    seg_step. rewrite equal_no by lra. rbool.
    change (mkC [?x; ?y] true) with (P2 x y). seg_step. change (mkC [?x; ?y] true) with (P2 x y). seg_step. rewrite equal_no by lra. rbool. reflexivity.
Qed.
(** Missing: a segment that starts inside (C58_segment_refuted and C58_contains_segment_refuted: crossings of the sides are
    not seen).  With [proper] the call always returns, and a segment that starts outside is never said to be inside. *)
Lemma seg_loop_proper_ret (s : segment R) l : forall prev first hit, exists r, pg2_seg_loop (H := Rnum 0) s true prev first l hit = Ret r.
Proof.
  induction l as [|i l IH]; intros prev first hit; cbn [pg2_seg_loop]; [eauto|].
  cbv zeta. match goal with |- context [if i_seg_seg ?n ?a ?b ?p then _ else _] => destruct (i_seg_seg n a b p) end; [eauto|apply IH].
Qed.
Theorem C58_contains_segment_proper_partial : forall l (s : segment R), l <> [] ->
  (exists r, c_pg2_seg (H := Rnum 0) l s true = Ret r) /\ (~ region l (co (end1 s)) -> c_pg2_seg (H := Rnum 0) l s true = Ret false).
Proof.
  intros l s Nn. split.
  - destruct (point_ret l (end1 s) true Nn) as (c & E). unfold c_pg2_seg. change (i_pg2_point (H := Rnum 0) l (end1 s) true = Ret c) in E. rewrite E. cbn [obind].
    destruct c; [|eauto]. destruct l as [|c l]; [easy|]. apply seg_loop_proper_ret.
  - intros I. apply (point_outside l (end1 s) true Nn) in I. unfold c_pg2_seg. change (i_pg2_point (H := Rnum 0) l (end1 s) true = Ret false) in I. rewrite I. reflexivity.
Qed.
Example C58_contains_segment_proper_example : triangle <> [] /\ ~ region triangle (co (end1 (mkS (P2 5 5) (P2 6 7)))).
Proof. split; [discriminate|]. cbn [end1]. unfold triangle. out_region. Qed.
(** Asking whether the triangle contains a segment that starts at its last corner reads past the end of the corners. *)
Theorem C58_contains_segment_crash_refuted : let s := mkS (P2 0 4) (P2 1 1) in incl (in_segment 2 s) (region triangle) /\ c_pg2_seg (H := Rnum 0) triangle s false = Undef.
Proof.
  cbv zeta. split.
  - intros x (t & Ht & E). apply (region_eq _ (co (P2 t (4 - 3 * t)))).
    { intros [|[|i]] Hi; [rewrite (E 0%nat Hi)|rewrite (E 1%nat Hi)|lia]; unfold seg_at, co; cbn; lra. }
    destruct (Req_dec t 0) as [-> |Nt]; [left; unfold triangle; side_at (P2 0 4) (P2 0 0) 0|]. right. unfold triangle. apply interior_parity. split; [off_boundary|].
    rewrite <- parity_passes; unfold par, sides; cbn [app combine fold_right]; unfold passes; rewrite !spans_R; unfold P2; cbn [fst snd co el nth]; rbool; cbn [xorb andb]; rewrite ?cut_R; cbn [fst snd co el nth]; unfold at_; cbn [get nth el nltb Rnum].
    rewrite (Rlt_bool_true t) by lra. rewrite Rlt_bool_false by lra. reflexivity.
  - change (c_pg2_seg triangle (mkS (P2 0 4) (P2 1 1)) false = Undef). unfold c_pg2_seg, triangle. cbn [obind last].
    seg_step. change (mkC [?x; ?y] true) with (P2 x y). seg_step. change (mkC [?x; ?y] true) with (P2 x y). cbn [pg2_seg_loop negb end1 end2]. no_seg.
    replace (i_seg_point 2 (mkS (P2 0 4) (P2 1 1)) (P2 0 4) false) with true.
    + replace (same 2 (P2 0 4) (P2 1 1)) with false; [reflexivity|]. symmetry. apply not_true_is_false. intros X. apply same_pt in X; try reflexivity. specialize (X 0%nat ltac:(lia)). unfold co in X. cbn in X. lra.
    + symmetry. apply (seg_point 2). exists 0. split; [lra|pt2].
Qed.

(** * Polygons *)
Theorem C58_polygons_partial : forall c1 l1 c2 l2 proper,
  (exists r, i_pg2_pg2 (H := Rnum 0) (c1 :: l1) (c2 :: l2) proper = Ret r) /\
  (interior (c1 :: l1) (co c2) \/ interior (c2 :: l2) (co c1) -> i_pg2_pg2 (H := Rnum 0) (c1 :: l1) (c2 :: l2) proper = Ret true).
Proof.
  intros c1 l1 c2 l2 proper. unfold i_pg2_pg2.
  destruct (point_ret (c1 :: l1) c2 proper ltac:(discriminate)) as (a & Ea). destruct (point_ret (c2 :: l2) c1 proper ltac:(discriminate)) as (b & Eb).
  change (i_pg2_point (H := Rnum 0) (c1 :: l1) c2 proper = Ret a) in Ea. change (i_pg2_point (H := Rnum 0) (c2 :: l2) c1 proper = Ret b) in Eb. unfold point in *. rewrite Ea, Eb. cbn [obind].
  split; [destruct (pg2_pg2_loop _ _ _ _ _ _), a; eauto|]. destruct (pg2_pg2_loop _ _ _ _ _ _); auto.
  intros [I|I]; apply (point_interior _ _ proper) in I.
  - assert (X : Ret a = Ret true) by (rewrite <- Ea; exact I). injection X as ->. reflexivity.
  - assert (X : Ret b = Ret true) by (rewrite <- Eb; exact I). injection X as ->. destruct a; reflexivity.
Qed.
(** Two triangles that cross, each with its corners outside the other, are not found to intersect. *)
Definition crossing_triangle : list (coords R) := [P2 (-2) (-1); P2 (-1) 0; P2 6 4].
Theorem C58_polygons_refuted : meet (interior triangle) (interior crossing_triangle) /\ forall proper, i_pg2_pg2 (H := Rnum 0) triangle crossing_triangle proper = Ret false.
Proof.
  split.
  - exists (co (P2 1 1)). split; [unfold triangle; in_interior|unfold crossing_triangle; in_interior].
  - intros proper. change (i_pg2_pg2 triangle crossing_triangle proper = Ret false). unfold i_pg2_pg2, triangle, crossing_triangle, chain.
    cbn [last chain_from negb pg2_pg2_loop chain_end existsb]. no_seg. cbn [orb].
    unfold point in *. rewrite point_outside; [|discriminate|out_region]. cbn [obind]. rewrite point_outside; [reflexivity|discriminate|out_region].
Qed.
(** A triangle with one corner inside another and the rest outside is said to be inside it. *)
Definition poking_triangle : list (coords R) := [P2 1 1; P2 (-2) (-2); P2 (-1) 2].
Theorem C58_contains_polygon_refuted : ~ incl (region poking_triangle) (region triangle) /\ c_pg2_pg2 (H := Rnum 0) triangle poking_triangle true = Ret true.
Proof.
  split.
  - intros I. assert (X : region poking_triangle (co (P2 (-2) (-2)))) by (left; apply corner_region; cbn; tauto). apply I in X.
    assert (Hx : ldot (-1, 0) (co (P2 (-2) (-2))) <= 0). { apply (region_half triangle); auto. intros c [<-|[<-|[<-|[]]]]; unfold ldot, co; cbn; lra. } unfold ldot, co in Hx. cbn in Hx. lra.
  - change (c_pg2_pg2 triangle poking_triangle true = Ret true). unfold c_pg2_pg2, triangle, poking_triangle, chain. unfold point in *. rewrite point_interior; [|in_interior].
    cbn [last chain_from negb all_ret existsb obind]. no_seg. reflexivity.
Qed.
Print Assumptions C58_point.
Print Assumptions C58_point_boundary_partial.
Print Assumptions C58_point_boundary_refuted.
Print Assumptions C58_in_point.
Print Assumptions C58_ball.
Print Assumptions C58_contains_ball.
Print Assumptions C58_in_ball.
Print Assumptions C58_in_box.
Print Assumptions C58_box_partial.
Print Assumptions C58_box_inside_refuted.
Print Assumptions C58_box_touching_refuted.
Print Assumptions C58_box_proper_refuted.
Print Assumptions C58_contains_box_partial.
Print Assumptions C58_contains_box_refuted.
Print Assumptions C58_contains_box_proper_refuted.
Print Assumptions C58_in_rotbox.
Print Assumptions C58_rotbox_partial.
Print Assumptions C58_contains_rotbox_partial.
Print Assumptions C58_in_segment.
Print Assumptions C58_segment_partial.
Print Assumptions C58_segment_refuted.
Print Assumptions C58_segment_false_positive_refuted.
Print Assumptions C58_contains_segment_refuted.
Print Assumptions C58_contains_segment_crash_refuted.
Print Assumptions C58_polygons_partial.
Print Assumptions C58_polygons_refuted.
Print Assumptions C58_contains_polygon_refuted.
