(** C46: intersection of rotated boxes in the plane and in space. *)
From Coq Require Import ZArith NArith Reals Bool List Lia Lra Psatz.
From Flocq Require Import Core.Raux.
From Verif Require Import Base Scalar ConstModel VecModel RotModel QuatModel ShapeModel IntersectModel RSpec VecSpec RotSpec ShapeSpec RLib MatLib OrdLib VecProofs VecProofs2 RotProofs2 RotProofs3 ShapeProofs ShapeProofs2 ShapeProofs3 PropBox BallProofs SphereProofs RbProofs RbProofs2 PropRotBox SatProofs SatProofs2 HellyProofs SatProofs3 SatProofs4 SatProofs5.
Import ListNotations.
Open Scope R_scope.

(** * The plane *)
(** In exact arithmetic Intersect(RotBox<2>, AxisBox<2>) decides whether the two boxes
    share a point: no false separation and no false intersection. *)
Theorem C46_box_2d_exact : forall (r : rotbox R) (b : axisbox R), proper_rotbox 2 r -> box_ordered 2 b ->
  (i_rb_box2 (H := Rnum 0) r b false = true <-> meet (in_rotbox 2 r) (in_box 2 b)).
Proof. intros r b [V O] Ob. now apply rb_box2. Qed.
(** With the tolerance a false is still a proof of disjointness, and a true means that the
    boxes meet when each is widened by epsilon. *)
Theorem C46_box_2d_tolerance : forall (eps : Epsilon) (r : rotbox R) (b : axisbox R), 0 <= (eps : R) -> proper_rotbox 2 r -> box_ordered 2 b ->
  (meet (in_rotbox 2 r) (in_box 2 b) -> i_rb_box2 r b false = true) /\
  (i_rb_box2 r b false = true -> meet (near_rotbox 2 eps r) (near_box 2 eps b)).
Proof. intros eps r b He [V O] Ob. split; [now apply (faces_meet eps)|now apply rb_box2_tol]. Qed.
(** "proper" asks for a common interior point, for every epsilon. *)
Theorem C46_box_2d_proper : forall (eps : Epsilon) (r : rotbox R) (b : axisbox R), proper_rotbox 2 r -> rb_thick 2 r -> box_thick 2 b ->
  (i_rb_box2 r b true = true <-> meet (in_rotbox_open 2 r) (in_box_open 2 b)).
Proof. intros eps r b [V O] T Tb. now apply rb_box2_proper_eps. Qed.
(** Two rotated boxes. *)
Theorem C46_rotbox_2d_exact : forall (r1 r2 : rotbox R) res, proper_rotbox 2 r1 -> proper_rotbox 2 r2 -> i_rb_rb2 (H := Rnum 0) r1 r2 false = Ret res ->
  (res = true <-> meet (in_rotbox 2 r1) (in_rotbox 2 r2)).
Proof.
  intros r1 r2 res [V1 O1] [V2 O2] E. unfold i_rb_rb2 in E. destruct (rb_rotate_point _ _ _ _) as [r'| | |] eqn:P; cbn [obind] in E; try discriminate. injection E as <-.
  destruct (in_own_frame 0 2 r1 r2 r' V1 O1 V2 O2 P) as (O' & V' & _ & I & _). rewrite (rb_box2 r' (rb_own_box (H := Rnum 0) 2 r2) O') by apply (own_ordered 0). symmetry.
  apply (frame_meet 2 r2 O2); auto using respects_rb, respects_box. intros x. now apply (in_frame 0).
Qed.
Theorem C46_rotbox_2d_tolerance : forall (eps : Epsilon) (r1 r2 : rotbox R) res, 0 <= (eps : R) -> proper_rotbox 2 r1 -> proper_rotbox 2 r2 -> i_rb_rb2 r1 r2 false = Ret res ->
  meet (in_rotbox 2 r1) (in_rotbox 2 r2) -> res = true.
Proof.
  intros eps r1 r2 res He [V1 O1] [V2 O2] E Mt. unfold i_rb_rb2 in E. destruct (rb_rotate_point _ _ _ _) as [r'| | |] eqn:P; cbn [obind] in E; try discriminate. injection E as <-.
  destruct (in_own_frame eps 2 r1 r2 r' V1 O1 V2 O2 P) as (O' & V' & _ & I & _). apply (faces_meet eps 2 r' _ O'); auto; [apply own_ordered|].
  apply (frame_meet 2 r2 O2 (in_rotbox 2 r1) (in_rotbox 2 r2)); auto using respects_rb, respects_box. intros x. now apply in_frame.
Qed.
Theorem C46_rotbox_2d_proper : forall (eps : Epsilon) (r1 r2 : rotbox R) res, proper_rotbox 2 r1 -> proper_rotbox 2 r2 -> rb_thick 2 r1 -> rb_thick 2 r2 -> i_rb_rb2 r1 r2 true = Ret res ->
  (res = true <-> meet (in_rotbox_open 2 r1) (in_rotbox_open 2 r2)).
Proof.
  intros eps r1 r2 res [V1 O1] [V2 O2] T1 T2 E. unfold i_rb_rb2 in E. destruct (rb_rotate_point _ _ _ _) as [r'| | |] eqn:P; cbn [obind] in E; try discriminate. injection E as <-.
  destruct (in_own_frame eps 2 r1 r2 r' V1 O1 V2 O2 P) as (O' & V' & Sz & _ & I). assert (T' : rb_thick 2 r') by (unfold rb_thick; rewrite Sz; exact T1).
  rewrite rb_box2_proper_eps; auto; [|now apply own_thick]. symmetry.
  apply (frame_meet 2 r2 O2); auto using respects_rb_open, respects_box_open. intros x. now apply in_frame_open.
Qed.
Example C46_example_2d : proper_rotbox 2 rb345 /\ rb_thick 2 rb345 /\ proper_rotbox 2 rbflat /\ box_thick 2 (mkB (mk2 0 0) (mk2 1 2)) /\
  exists res, i_rb_rb2 (H := Rnum 0) rb345 rbflat false = Ret res.
Proof.
  destruct rb345_proper as (P & T & _). split; [auto|]. split; [auto|]. split; [split; [reflexivity|]|split].
  - intros i j Hi Hj. destruct i as [|[|i]]; [| |lia]; destruct j as [|[|j]]; try lia; vm_compute; ring.
  - intros i Hi. destruct i as [|[|i]]; [| |lia]; unfold co, mk2; cbn; lra.
  - eexists. reflexivity.
Qed.

(** * Space *)
(** In exact arithmetic Intersect(RotBox<3>, AxisBox<3>) decides whether the boxes share a
    point: the six faces and nine pairs of edges are enough. *)
Theorem C46_box_3d_exact : forall (r : rotbox R) (b : axisbox R), proper_rotbox 3 r -> box_ordered 3 b ->
  (i_rb_box3 (H := Rnum 0) r b false = true <-> meet (in_rotbox 3 r) (in_box 3 b)).
Proof. intros r b [V O] Ob. now apply rb_box3. Qed.
Theorem C46_rotbox_3d_exact : forall (r1 r2 : rotbox R) res, proper_rotbox 3 r1 -> proper_rotbox 3 r2 -> i_rb_rb3 (H := Rnum 0) r1 r2 false = Ret res ->
  (res = true <-> meet (in_rotbox 3 r1) (in_rotbox 3 r2)).
Proof.
  intros r1 r2 res [V1 O1] [V2 O2] E. unfold i_rb_rb3 in E. destruct (rb_rotate_point _ _ _ _) as [r'| | |] eqn:P; cbn [obind] in E; try discriminate. injection E as <-.
  destruct (in_own_frame 0 3 r1 r2 r' V1 O1 V2 O2 P) as (O' & V' & _ & I & _). rewrite (rb_box3 r' (rb_own_box (H := Rnum 0) 3 r2) V' O') by apply (own_ordered 0). symmetry.
  apply (frame_meet 3 r2 O2); auto using respects_rb, respects_box. intros x. now apply (in_frame 0).
Qed.
(** The sine of the angle between edge i of the rotated box and coordinate axis j, squared. *)
Definition edge_sin2 (r : rotbox R) (i j : nat) : R := 1 - ent (orient r) i j * ent (orient r) i j.
(** The twelve inner products of the test are not rounded to zero by Dot's tolerance. *)
Definition dots_exact (eps : Epsilon) (r : rotbox R) (b : axisbox R) : Prop := forall i j, (i < 3)%nat -> (j < 3)%nat ->
  exact_dot eps 3 (vec_sub 3 (low b) (corner0 r)) (sat_axis (orient r) i j) /\
  forall k, (k < 3)%nat -> exact_dot eps 3 (rot_row 3 (orient r) k) (sat_axis (orient r) i j).
Lemma edge_sin2_wax r i j : orthogonal 3 (ent (orient r)) -> (i < 3)%nat -> (j < 3)%nat -> norm2 3 (wax (ent (orient r)) i j) = edge_sin2 r i j.
Proof.
  intros O Hi Hj. unfold norm2, inner, edge_sin2. rewrite (sum_cyc _ j Hj), wax_0, wax_1, wax_2 by auto.
  pose proof (orth_rows _ O i i Hi Hi) as A. rewrite (sum_cyc _ j Hj), Nat.eqb_refl in A. lra.
Qed.
Lemma edge_sin2_par r i j : orthogonal 3 (ent (orient r)) -> (i < 3)%nat -> (j < 3)%nat -> edge_sin2 r i j = 0 -> par (ent (orient r)) i j.
Proof.
  intros O Hi Hj E. rewrite <- edge_sin2_wax in E by auto. unfold norm2, inner in E. rewrite (sum_cyc _ j Hj), wax_0, wax_1, wax_2 in E by auto.
  split; nra.
Qed.
(** With the tolerance: sharing a point is never reported as false... *)
Theorem C46_box_3d_sound_partial : forall (eps : Epsilon) (r : rotbox R) (b : axisbox R), 0 <= (eps : R) -> proper_rotbox 3 r -> box_ordered 3 b -> dots_exact eps r b ->
  (meet (in_rotbox 3 r) (in_box 3 b) -> i_rb_box3 r b false = true) /\
  (0 < (eps : R) -> rb_thick 3 r -> meet (in_rotbox_open 3 r) (in_box_open 3 b) -> i_rb_box3 r b true = true).
Proof. intros eps r b He [V O] Ob Ex. split; [now apply rb_box3_sound|intros; now apply rb_box3_sound_proper]. Qed.
(** ... and a true means that the boxes meet when widened by epsilon / k, where every pair
    of edges is parallel or makes an angle with sine at least k. *)
Theorem C46_box_3d_complete_partial : forall (eps : Epsilon) (r : rotbox R) (b : axisbox R) k, 0 <= (eps : R) -> (eps : R) <= k -> 0 < k <= 1 ->
  proper_rotbox 3 r -> box_ordered 3 b -> dots_exact eps r b ->
  (forall i j, (i < 3)%nat -> (j < 3)%nat -> edge_sin2 r i j = 0 \/ k * k <= edge_sin2 r i j) ->
  i_rb_box3 r b false = true -> meet (near_rotbox 3 (eps / k) r) (near_box 3 (eps / k) b).
Proof.
  intros eps r b k He Hk K [V O] Ob Ex Cl. apply rb_box3_tol; auto. intros i j Hi Hj. rewrite edge_sin2_wax by auto. destruct (Cl i j Hi Hj) as [P|P]; [left; now apply edge_sin2_par|now right].
Qed.
(** "proper": exactly the boxes with a common interior point, under the same conditions. *)
Theorem C46_box_3d_proper_partial : forall (eps : Epsilon) (r : rotbox R) (b : axisbox R), 0 < (eps : R) -> proper_rotbox 3 r -> rb_thick 3 r -> box_thick 3 b -> dots_exact eps r b ->
  (forall i j, (i < 3)%nat -> (j < 3)%nat -> edge_sin2 r i j = 0 \/ eps * eps <= edge_sin2 r i j) ->
  (i_rb_box3 r b true = true <-> meet (in_rotbox_open 3 r) (in_box_open 3 b)).
Proof.
  intros eps r b He [V O] T Tb Ex Cl. assert (Ob : box_ordered 3 b) by (intros i Hi; specialize (Tb i Hi); lra).
  split; [|intros Mt; now apply rb_box3_sound_proper]. intros E. apply (rb_box3_complete_proper eps); auto; [lra|].
  intros i j Hi Hj. rewrite edge_sin2_wax by auto. destruct (Cl i j Hi Hj) as [P|P]; [left; now apply edge_sin2_par|now right].
Qed.

(** * The tolerance of Dot in space *)
(** Without [dots_exact] the positive statement fails: Dot replaces the small component of
    a long edge along an axis by zero, so a box that consists of one corner of the rotated
    box is reported as separate from it. *)
Section Clamp.
Context (eps : Epsilon).
Hypothesis He : 0 < (eps : R) <= / 100.
Let s : R := eps / 2.
Let c : R := sqrt (1 - s * s).
Definition tilted : rotbox R :=
  mkRB (mkC [0; 0; 0] true) (mkC [1; 1; 1000] true)
    (mkM [[3/5 * sqrt (1 - eps / 2 * (eps / 2)); eps / 2; 4/5 * sqrt (1 - eps / 2 * (eps / 2))]; [- (3/5) * (eps / 2); sqrt (1 - eps / 2 * (eps / 2)); - (4/5) * (eps / 2)]; [- (4/5); 0; 3/5]] false true 1).
Definition corner_box : axisbox R := mkB (mkC [-800; 0; 600] true) (mkC [-800; 0; 600] true).
Lemma s_small : 0 < s <= / 200. Proof. unfold s. unfold epsilon in *. lra. Qed.
Lemma c_s : c * c + s * s = 1.
Proof. unfold c. rewrite sqrt_sqrt; [ring|]. pose proof s_small. nra. Qed.
Lemma c_large : 9/10 <= c <= 1.
Proof.
  pose proof s_small. pose proof c_s as E. assert (0 <= c) by apply sqrt_pos. assert (Z : s * s <= / 40000) by nra. split; [|nra].
  apply Rnot_lt_le. intros L. assert (c * c < 9/10 * (9/10)) by (apply Rmult_le_0_lt_compat; auto). lra.
Qed.
Lemma tilted_proper : proper_rotbox 3 tilted.
Proof.
  split; [reflexivity|]. pose proof c_s as E. intros i j Hi Hj. unfold mmul, mtr, delta, tilted, ent. fold s c.
  destruct i as [|[|[|i]]]; [| | |lia]; destruct j as [|[|[|j]]]; try lia; cbn; fold s; fold c; lra.
Qed.
Lemma tilted_meets : meet (in_rotbox 3 tilted) (in_box 3 corner_box).
Proof.
  exists (fun i => nth i [-800; 0; 600] 0). split.
  - exists (fun k => if (k =? 2)%nat then 1 else 0). split.
    + intros k Hk. destruct (k =? 2)%nat; lra.
    + intros i Hi. unfold rb_at, tilted, co, ent. cbn. destruct i as [|[|[|i]]]; [| | |lia]; cbn; lra.
  - intros i Hi. unfold corner_box, co. cbn. destruct i as [|[|[|i]]]; [| | |lia]; lra.
Qed.
Lemma tilted_separated : i_rb_box3 tilted corner_box false = false.
Proof.
  unfold i_rb_box3. destruct (rb_box_faces 3 tilted corner_box false); [|reflexivity]. unfold sat_pairs. cbn [sat_edges].
  assert (E : sat_edge tilted corner_box false 0 0 = None); [|now rewrite E].
  pose proof s_small as Sm. pose proof c_s as Cs. pose proof c_large as Cl.
  assert (Ee : (eps : R) = 2 * s) by (unfold s, epsilon in *; lra).
  set (W := sat_axis (orient tilted) 0 0).
  assert (W0 : co W 0 = 0) by reflexivity. assert (W1 : co W 1 = - (4/5 * c)) by reflexivity. assert (W2 : co W 2 = s) by reflexivity.
  assert (Dw : dims 3 W) by reflexivity.
  assert (Bw : bounded_by 3 W 1).
  { intros i Hi. destruct i as [|[|[|i]]]; [rewrite W0|rewrite W1|rewrite W2|lia]; apply Rabs_le; lra. }
  assert (N : sqr_mag 3 W = 16/25 * (c * c) + s * s).
  { rewrite sqr_mag_norm2. unfold norm2, inner. cbn [Rsum]. rewrite W0, W1, W2. field. }
  assert (D2 : dot 3 (rot_row 3 (orient tilted) 2) W = 0).
  { rewrite dot_def. assert (I : inner 3 (co (rot_row 3 (orient tilted) 2)) (co W) = 3/5 * s).
    { unfold inner. cbn [Rsum]. rewrite W0, W1, W2. change (co (rot_row 3 (orient tilted) 2) 0) with (- (4/5)). change (co (rot_row 3 (orient tilted) 2) 1) with 0. change (co (rot_row 3 (orient tilted) 2) 2) with (3/5). ring. }
    rewrite I. rewrite Rabs_pos_eq by lra. destruct (Rle_bool_spec (scale_eps_arr (el (rot_row 3 (orient tilted) 2)) (el W) eps) (3/5 * s)) as [L|L]; auto. exfalso.
    pose proof (co_max_abs eps 3 W 1 Dw ltac:(lia)) as M1. rewrite W1, Rabs_Ropp, Rabs_pos_eq in M1 by lra.
    assert (M2 : 4/5 <= max_abs (el (rot_row 3 (orient tilted) 2))).
    { pose proof (co_max_abs eps 3 (rot_row 3 (orient tilted) 2) 0 eq_refl ltac:(lia)) as M2. change (co (rot_row 3 (orient tilted) 2) 0) with (- (4/5)) in M2. rewrite Rabs_Ropp, Rabs_pos_eq in M2 by lra. exact M2. }
    unfold scale_eps_arr in L. destruct (scale_eps_bounds eps (max_abs (el (rot_row 3 (orient tilted) 2))) (max_abs (el W)) eps) as [Lo _]; [lra|lra|lra|].
    rewrite !Rabs_pos_eq in Lo by lra.
    assert (Mm : 1/2 <= Rmin (max_abs (el (rot_row 3 (orient tilted) 2))) (max_abs (el W))) by (apply Rmin_glb; lra).
    assert (eps * (1/2) <= eps * Rmin (max_abs (el (rot_row 3 (orient tilted) 2))) (max_abs (el W))) by (apply Rmult_le_compat_l; lra). lra. }
  assert (D1 : dot 3 (rot_row 3 (orient tilted) 1) W <= 0).
  { destruct (dot_exact_or_zero eps 3 (rot_row 3 (orient tilted) 1) W) as [-> | ->]; [|lra]. unfold inner. cbn [Rsum]. rewrite W0, W1, W2.
    change (co (rot_row 3 (orient tilted) 1) 0) with (- (3/5) * s). change (co (rot_row 3 (orient tilted) 1) 1) with c. change (co (rot_row 3 (orient tilted) 1) 2) with (- (4/5) * s). nra. }
  set (sep := vec_sub 3 (low corner_box) (corner0 tilted)).
  assert (P0 : co sep 0 = -800) by (unfold sep; rewrite sub_co by lia; unfold co, corner_box, tilted; cbn; lra).
  assert (P1 : co sep 1 = 0) by (unfold sep; rewrite sub_co by lia; unfold co, corner_box, tilted; cbn; lra).
  assert (P2 : co sep 2 = 600) by (unfold sep; rewrite sub_co by lia; unfold co, corner_box, tilted; cbn; lra).
  assert (Ds : dot 3 sep W >= 500 * s).
  { assert (Bs : bounded_by 3 sep 800) by (intros i Hi; destruct i as [|[|[|i]]]; [rewrite P0|rewrite P1|rewrite P2|lia]; apply Rabs_le; lra).
    pose proof (dot_error eps 3 sep W 800 1 ltac:(lia) ltac:(lra) eq_refl Dw Bs Bw) as Er. rewrite Rmin_right in Er by lra.
    assert (I : inner 3 (co sep) (co W) = 600 * s) by (unfold inner; cbn [Rsum]; rewrite W0, W1, W2, P0, P1, P2; ring). rewrite I in Er. apply Rabs_le_inv in Er. lra. }
  unfold sat_edge. fold W. fold sep. rewrite N. cbn [nltb nmul neps Rnum nsub next3]. rewrite D2, !range_min, !at_co.
  rewrite (Rlt_bool_false _ (eps * eps)) by nra.
  assert (Bz : forall k, (k < 3)%nat -> co (vec_sub 3 (high corner_box) (low corner_box)) k = 0).
  { intros k Hk. rewrite sub_co by exact Hk. unfold corner_box. cbn [low high]. apply Rminus_diag_eq. reflexivity. }
  rewrite !Bz by lia. rewrite !Rmult_0_r, Rmult_0_l.
  assert (S1 : co (rsize tilted) 1 = 1) by reflexivity. rewrite S1, Rmult_1_r. rewrite (Rmax_left 0 0), (Rmin_left 0 0) by lra. rewrite (Rmax_left 0 _) by exact D1.
  assert (Ls : less_ (0 + 0 - dot 3 sep W) (0 + 0) false = true).
  { destruct (less_ (0 + 0 - dot 3 sep W) (0 + 0) false) eqn:Q; auto. exfalso. apply less_false in Q. lra. }
  rewrite Ls, orb_true_r. reflexivity.
Qed.
End Clamp.
Theorem C46_box_3d_refuted : forall eps : Epsilon, 0 < (eps : R) <= / 100 -> exists (r : rotbox R) (b : axisbox R),
  proper_rotbox 3 r /\ rb_thick 3 r /\ box_ordered 3 b /\ meet (in_rotbox 3 r) (in_box 3 b) /\ i_rb_box3 r b false = false.
Proof.
  intros eps He. exists (tilted eps), corner_box. split; [now apply tilted_proper|]. split; [|split; [|split; [apply tilted_meets|now apply tilted_separated]]].
  - intros k Hk. destruct k as [|[|[|k]]]; [| | |lia]; unfold tilted, co; cbn; lra.
  - intros i Hi. destruct i as [|[|[|i]]]; [| | |lia]; unfold corner_box, co; cbn; lra.
Qed.
(** A box turned by the 3-4-5 angle about the vertical and a box overlapping it meet the
    hypotheses of the three partial theorems, with k = 3/5. *)
Definition rb345_3 : rotbox R := mkRB (mkC [0; 0; 0] true) (mkC [5; 5; 2] true) (mkM [[3/5; 4/5; 0]; [-(4/5); 3/5; 0]; [0; 0; 1]] false true 1).
Definition box_3 : axisbox R := mkB (mkC [1; 1; 1] true) (mkC [4; 2; 5] true).
Lemma exact_of_bound (eps : Epsilon) (a b : vector R) A : 0 <= (eps : R) <= / 100 -> dims 3 a -> dims 3 b -> bounded_by 3 a A -> bounded_by 3 b 1 ->
  inner 3 (co a) (co b) = 0 \/ /5 <= Rabs (inner 3 (co a) (co b)) -> exact_dot eps 3 a b.
Proof.
  intros He Da Db Ba Bb I. unfold exact_dot. destruct (dot_exact_or_zero eps 3 a b) as [E|E]; auto. rewrite E. destruct I as [I|I]; [congruence|].
  pose proof (dot_error eps 3 a b A 1 ltac:(lia) ltac:(lra) Da Db Ba Bb) as Er. rewrite E, Rminus_0_l, Rabs_Ropp in Er.
  pose proof (Rmin_r A 1). assert (2 * eps * Rmin A 1 <= 2 * eps * 1) by (apply Rmult_le_compat_l; lra). lra.
Qed.
Example C46_example_3d : forall eps : Epsilon, 0 < (eps : R) <= / 100 ->
  proper_rotbox 3 rb345_3 /\ rb_thick 3 rb345_3 /\ box_thick 3 box_3 /\ dots_exact eps rb345_3 box_3 /\ (eps : R) <= 3/5 /\
  (forall i j, (i < 3)%nat -> (j < 3)%nat -> edge_sin2 rb345_3 i j = 0 \/ 3/5 * (3/5) <= edge_sin2 rb345_3 i j) /\
  meet (in_rotbox_open 3 rb345_3) (in_box_open 3 box_3).
Proof.
  intros eps He. split; [split; [reflexivity|]|split; [|split; [|split; [|split; [lra|split]]]]].
  - intros i j Hi Hj. destruct i as [|[|[|i]]]; [| | |lia]; destruct j as [|[|[|j]]]; try lia; vm_compute; field.
  - intros k Hk. destruct k as [|[|[|k]]]; [| | |lia]; unfold rb345_3, co; cbn; lra.
  - intros k Hk. destruct k as [|[|[|k]]]; [| | |lia]; unfold box_3, co; cbn; lra.
  - intros i j Hi Hj. assert (Bw : bounded_by 3 (sat_axis (orient rb345_3) i j) 1).
    { intros l Hl; destruct i as [|[|[|i]]]; [| | |lia]; destruct j as [|[|[|j]]]; try lia; destruct l as [|[|[|l]]]; try lia; unfold co, sat_axis, rb345_3; cbn; apply Rabs_le; lra. }
    assert (Dw : dims 3 (sat_axis (orient rb345_3) i j)) by (destruct i as [|[|[|i]]]; [| | |lia]; destruct j as [|[|[|j]]]; try lia; reflexivity).
    split; [|intros k Hk]; (apply (exact_of_bound eps _ _ 1); [lra|reflexivity|exact Dw| |exact Bw| ]).
    + intros l Hl; destruct l as [|[|[|l]]]; try lia; unfold co, vec_sub, rb345_3, box_3; cbn; apply Rabs_le; lra.
    + unfold inner. cbn [Rsum]. destruct i as [|[|[|i]]]; [| | |lia]; destruct j as [|[|[|j]]]; try lia; unfold co, vec_sub, sat_axis, rot_row, rb345_3, box_3; cbn;
      first [left; lra|right; unfold Rabs; destruct (Rcase_abs _); lra].
    + destruct k as [|[|[|k]]]; [| | |lia]; intros l Hl; destruct l as [|[|[|l]]]; try lia; unfold co, rot_row, rb345_3; cbn; apply Rabs_le; lra.
    + unfold inner. cbn [Rsum]. destruct i as [|[|[|i]]]; [| | |lia]; destruct j as [|[|[|j]]]; try lia; (destruct k as [|[|[|k]]]; [| | |lia]); unfold co, sat_axis, rot_row, rb345_3; cbn;
      first [left; lra|right; unfold Rabs; destruct (Rcase_abs _); lra].
  - intros i j Hi Hj. destruct i as [|[|[|i]]]; [| | |lia]; destruct j as [|[|[|j]]]; try lia; unfold edge_sin2, ent; cbn; first [left; lra|right; lra].
  - exists (fun i => nth i [115/100; 195/100; 3/2] 0). split.
    + exists (fun k => nth k [45/100; 5/100; 3/4] 0). split; [intros k Hk; destruct k as [|[|[|k]]]; [| | |lia]; cbn; lra|].
      intros i Hi. unfold rb_at, rb345_3, co, ent. destruct i as [|[|[|i]]]; [| | |lia]; cbn; lra.
    + intros i Hi. destruct i as [|[|[|i]]]; [| | |lia]; unfold box_3, co; cbn; lra.
Qed.
Print Assumptions C46_box_2d_exact.
Print Assumptions C46_box_2d_tolerance.
Print Assumptions C46_box_2d_proper.
Print Assumptions C46_rotbox_2d_exact.
Print Assumptions C46_rotbox_2d_tolerance.
Print Assumptions C46_rotbox_2d_proper.
Print Assumptions C46_box_3d_exact.
Print Assumptions C46_rotbox_3d_exact.
Print Assumptions C46_box_3d_sound_partial.
Print Assumptions C46_box_3d_complete_partial.
Print Assumptions C46_box_3d_proper_partial.
Print Assumptions C46_box_3d_refuted.
