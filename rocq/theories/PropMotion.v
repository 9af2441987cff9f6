(** C48: motions of shapes; C36: changes of coordinates of shapes. *)
From Coq Require Import ZArith NArith Reals Bool List Lia Lra Psatz.
From Flocq Require Import Core.Raux.
From Verif Require Import Base Scalar ConstModel VecModel RotModel QuatModel ShapeModel IntersectModel PolyModel RSpec VecSpec RotSpec QuatSpec ShapeSpec MotionSpec RLib MatLib OrdLib VecProofs VecProofs2 VecProofs3 VecProofs4 RotProofs2 RotProofs3 QuatProofs QuatProofs4 QuatProofs5 QuatProofs6 QuatProofs7 ShapeProofs ShapeProofs2 ShapeProofs3 BallProofs SphereProofs SegProofs SegProofs2 SegProofs3 RbProofs RbProofs2 MotionProofs VecProofs5 MotionProofs2.
Import ListNotations.
Open Scope R_scope.

(** Translations and rotations by an orthogonal matrix or a unit quaternion are rigid
    motions; rigid motions keep all distances; a rotation about p holds p. *)
Theorem C48_rigid : forall n v m p q,
  rigid n (shifted v) /\ (orthogonal n (ent m) -> rigid n (turned n m p)) /\ (unit_quat q -> rigid 3 (turned_q q p)) /\
  (forall f, rigid n f -> isometry n f) /\ pteq n (turned n m p p) p /\ pteq 3 (turned_q q p p) p.
Proof.
  intros n v m p q. split; [apply rigid_shifted|]. split; [apply rigid_turned|]. split; [apply rigid_turned_q|]. split; [intros f; apply rigid_isometry|]. split.
  - intros i Hi. unfold turned. rewrite Rsum_zero; [ring|]. intros; ring.
  - intros i Hi. unfold turned_q, sandwich, hmul, hconj, pure, hpart. destruct i as [|[|i]]; cbn [hw hx hy hz]; ring.
Qed.

(** ** Segment *)
Lemma seg_center_at (eps : Epsilon) n (s : segment R) : pteq n (co (seg_center n s)) (seg_at s (1/2)).
Proof. intros i Hi. unfold seg_center, seg_at. rewrite (mid_co eps) by auto. unfold nhalf, n1, n2. cbn [ndiv nofZ Rnum]. lra. Qed.
Lemma seg_center_moved (eps : Epsilon) n f (s s' : segment R) : rigid n f -> seg_moved n f s s' -> pteq n (co (seg_center n s')) (f (co (seg_center n s))).
Proof.
  intros Rf [C _] i Hi. rewrite (seg_center_at eps n s' i Hi). rewrite (rigid_ext n f _ _ Rf (seg_center_at eps n s) i Hi).
  unfold seg_at. rewrite (rigid_comb n f (co (end1 s)) (co (end2 s)) (1/2) Rf i Hi). pose proof (C 0%N i Hi) as C0. pose proof (C 1%N i Hi) as C1. cbn in C0, C1. rewrite C0, C1. reflexivity.
Qed.
Lemma pteq_shift n (eps : Epsilon) (x v : coords R) : pteq n (co (vec_add n x v)) (shifted (co v) (co x)).
Proof. intros i Hi. unfold shifted. now apply add_co. Qed.

Theorem C48_segment_shift : forall (eps : Epsilon) n (s : segment R) v p k,
  seg_moved n (shifted (co v)) s (seg_shift n s v) /\ seg_valid (seg_shift n s v) = seg_valid s && valid v /\
  (exists w, seg_moved n (shifted w) s (seg_move_center n s p)) /\ pteq n (co (seg_center n (seg_move_center n s p))) (co p) /\
  seg_valid (seg_move_center n s p) = seg_valid s && valid p /\
  (if (k <? 2)%N then exists s', seg_move_corner n s p k = Ret s' /\ (exists w, seg_moved n (shifted w) s s') /\
     pteq n (co (seg_corner s' k)) (co p) /\ seg_valid s' = seg_valid s && valid p
   else seg_move_corner n s p k = AssertFail).
Proof.
  intros eps n s v p k. assert (Sh : forall v, seg_moved n (shifted (co v)) s (seg_shift n s v)) by (intros; apply seg_image; [apply rigid_shifted|apply (pteq_shift n eps)|apply (pteq_shift n eps)]).
  split; auto. split; [unfold seg_valid, seg_shift; cbn; destruct (valid (end1 s)), (valid (end2 s)), (valid v); reflexivity|].
  split; [eexists; apply Sh|]. split; [|split].
  - intros i Hi. unfold seg_move_center. rewrite (seg_center_moved eps n _ _ _ (rigid_shifted n _) (Sh _) i Hi). unfold shifted. rewrite sub_co by auto. ring.
  - unfold seg_valid, seg_move_center, seg_shift; cbn; destruct (valid (end1 s)), (valid (end2 s)), (valid p); reflexivity.
  - destruct (N.ltb_spec k 2) as [L|L].
    + unfold seg_move_corner. assert ((k =? 0)%N || (k =? 1)%N = true) as -> by (destruct (N.eqb_spec k 0), (N.eqb_spec k 1); auto; lia). cbn [oassert]. eexists. split; [reflexivity|].
      unfold seg_corner. destruct (N.eqb_spec k 0) as [->|K]; (split; [eexists; apply seg_image; [apply rigid_shifted| |]|split; [|]]); cbn [end1 end2].
      * instantiate (1 := fun i => co p i - co (end1 s) i). intros i Hi. unfold shifted. ring.
      * intros i Hi. unfold shifted. rewrite add_co, sub_co by auto. ring.
      * apply pteq_refl.
      * unfold seg_valid. cbn. destruct (valid (end1 s)), (valid (end2 s)), (valid p); reflexivity.
      * instantiate (1 := fun i => co p i - co (end2 s) i). intros i Hi. unfold shifted. rewrite !sub_co by auto. ring.
      * intros i Hi. unfold shifted. ring.
      * apply N.eqb_neq in K. apply pteq_refl.
      * unfold seg_valid. cbn. destruct (valid (end1 s)), (valid (end2 s)), (valid p); reflexivity.
    + unfold seg_move_corner. destruct (N.eqb_spec k 0), (N.eqb_spec k 1); try lia. reflexivity.
Qed.

(** Rotation with a matrix. *)
Theorem C48_segment_rotate : forall (eps : Epsilon) n (s : segment R) m p k, orthogonal n (ent m) ->
  seg_moved n (turned n m (co p)) s (seg_rotate_point n s m p) /\ seg_valid (seg_rotate_point n s m p) = seg_valid s && mvalid m && valid p /\
  seg_moved n (turned n m (co (seg_center n s))) s (seg_rotate_center n s m) /\ pteq n (co (seg_center n (seg_rotate_center n s m))) (co (seg_center n s)) /\
  (if (k <? 2)%N then exists s', seg_rotate_corner n s m k = Ret s' /\ seg_moved n (turned n m (co (seg_corner s k))) s s' /\ seg_corner s' k = seg_corner s k /\
     (mvalid m = true -> seg_valid s' = seg_valid s)
   else seg_rotate_corner n s m k = AssertFail).
Proof.
  intros eps n s m p k O.
  assert (Ro : forall p, seg_moved n (turned n m (co p)) s (seg_rotate_point n s m p)) by (intros; apply seg_image; [now apply rigid_turned|intros i Hi; now apply (point_rotate_co eps)|intros i Hi; now apply (point_rotate_co eps)]).
  assert (Fx : forall x, pteq n (turned n m x x) x) by (intros x i Hi; unfold turned; rewrite Rsum_zero; [ring|intros; ring]).
  split; auto. split; [|split; [apply Ro|split]].
  - unfold seg_valid, seg_rotate_point, point_rotate, vec_add, prod_vm, inv_prod_mv, vec_sub. cbn [valid end1 end2]. destruct (valid (end1 s)), (valid (end2 s)), (valid p), (mvalid m); reflexivity.
  - intros i Hi. unfold seg_rotate_center. rewrite (seg_center_moved eps n _ _ _ (rigid_turned n m _ O) (Ro _) i Hi). now apply Fx.
  - destruct (N.ltb_spec k 2) as [L|L].
    + unfold seg_rotate_corner. assert ((k =? 0)%N || (k =? 1)%N = true) as -> by (destruct (N.eqb_spec k 0), (N.eqb_spec k 1); auto; lia). cbn [oassert]. eexists. split; [reflexivity|].
      unfold seg_corner. destruct (N.eqb_spec k 0) as [->|K].
      * split; [|split; [reflexivity|]].
        -- apply seg_image; [now apply rigid_turned|cbn [end1]; apply pteq_sym, Fx|intros i Hi; now apply (point_rotate_co eps)].
        -- intros V. unfold seg_valid, point_rotate, vec_add, prod_vm, inv_prod_mv, vec_sub. cbn [valid end1 end2]. rewrite V. destruct (valid (end1 s)), (valid (end2 s)); reflexivity.
      * split; [|split; [reflexivity|]].
        -- apply seg_image; [now apply rigid_turned|intros i Hi; now apply (point_rotate_co eps)|cbn [end2]; apply pteq_sym, Fx].
        -- intros V. unfold seg_valid, point_rotate, vec_add, prod_vm, inv_prod_mv, vec_sub. cbn [valid end1 end2]. rewrite V. destruct (valid (end1 s)), (valid (end2 s)); reflexivity.
    + unfold seg_rotate_corner. destruct (N.eqb_spec k 0), (N.eqb_spec k 1); try lia. reflexivity.
Qed.
(** Rotation with a quaternion, when Dot and Cross do not round the vectors from the point
    held to the corners ([exact_turn]; always so at tolerance 0, [exact_turn_0]). *)
Definition exact_turn (eps : Epsilon) (q : quat R) (p x : coords R) : Prop := exact_pair eps (qv q) (vec_sub 3 x p).
Lemma exact_turn_0 q p x : exact_turn 0 q p x. Proof. apply exact_pair_0. Qed.
Theorem C48_segment_quaternion : forall (eps : Epsilon) (s : segment R) q p k, unit_quat q ->
  (exact_turn eps q p (end1 s) -> exact_turn eps q p (end2 s) -> seg_moved 3 (turned_q q (co p)) s (seg_rotate_point_q s q p)) /\
  (exact_turn eps q (seg_center 3 s) (end1 s) -> exact_turn eps q (seg_center 3 s) (end2 s) ->
   seg_moved 3 (turned_q q (co (seg_center 3 s))) s (seg_rotate_center_q 3 s q) /\
   pteq 3 (co (seg_center 3 (seg_rotate_center_q 3 s q))) (co (seg_center 3 s))) /\
  (exact_turn eps q (end1 s) (end2 s) -> exact_turn eps q (end2 s) (end1 s) ->
   if (k <? 2)%N then exists s', seg_rotate_corner_q s q k = Ret s' /\ seg_moved 3 (turned_q q (co (seg_corner s k))) s s' /\ seg_corner s' k = seg_corner s k
   else seg_rotate_corner_q s q k = AssertFail).
Proof.
  intros eps s q p k U.
  assert (Ro : forall p, exact_turn eps q p (end1 s) -> exact_turn eps q p (end2 s) -> seg_moved 3 (turned_q q (co p)) s (seg_rotate_point_q s q p)) by (intros; apply seg_image; [now apply rigid_turned_q|intros i Hi; now apply (point_rotate_q_co eps)|intros i Hi; now apply (point_rotate_q_co eps)]).
  assert (Fx : forall x, pteq 3 (turned_q q x x) x) by (intros x; apply (C48_rigid 3 x (rot_default 3) x q)).
  split; auto. split.
  - intros E1 E2. split; [now apply Ro|]. intros i Hi; unfold seg_rotate_center_q; rewrite (seg_center_moved eps 3 _ _ _ (rigid_turned_q q _ U) (Ro _ E1 E2) i Hi); now apply Fx.
  - intros E1 E2. destruct (N.ltb_spec k 2) as [L|L].
    + unfold seg_rotate_corner_q. assert ((k =? 0)%N || (k =? 1)%N = true) as -> by (destruct (N.eqb_spec k 0), (N.eqb_spec k 1); auto; lia). cbn [oassert]. eexists. split; [reflexivity|].
      unfold seg_corner. destruct (N.eqb_spec k 0) as [->|K]; (split; [|reflexivity]).
      * apply seg_image; [now apply rigid_turned_q|cbn [end1]; apply pteq_sym, Fx|intros i Hi; now apply (point_rotate_q_co eps)].
      * apply seg_image; [now apply rigid_turned_q|intros i Hi; now apply (point_rotate_q_co eps)|cbn [end2]; apply pteq_sym, Fx].
    + unfold seg_rotate_corner_q. destruct (N.eqb_spec k 0), (N.eqb_spec k 1); try lia. reflexivity.
Qed.

(** ** Ball: a ball has no corners; rotations about its centre leave it alone *)
Theorem C48_ball : forall (eps : Epsilon) n (b : ball R) v m p, orthogonal n (ent m) ->
  ball_moved n (shifted (co v)) b (ball_shift n b v) /\ ball_valid (ball_shift n b v) = ball_valid b && valid v /\
  (exists w, ball_moved n (shifted w) b (ball_move_center b p)) /\ center (ball_move_center b p) = p /\
  ball_moved n (turned n m (co p)) b (ball_rotate_point n b m p) /\ ball_valid (ball_rotate_point n b m p) = ball_valid b && mvalid m && valid p /\
  ball_moved n (turned n m (co (center b))) b b.
Proof.
  intros eps n b v m p O. split; [apply ball_image; [apply rigid_shifted|apply (pteq_shift n eps)|reflexivity]|]. split; [reflexivity|].
  split; [exists (fun i => co p i - co (center b) i); apply ball_image; [apply rigid_shifted|intros i Hi; unfold shifted; cbn; ring|reflexivity]|]. split; [reflexivity|].
  split; [apply ball_image; [now apply rigid_turned|intros i Hi; now apply (point_rotate_co eps)|reflexivity]|]. split.
  - unfold ball_valid, ball_rotate_point, point_rotate, vec_add, prod_vm, inv_prod_mv, vec_sub. cbn [center valid]. destruct (valid (center b)), (mvalid m), (valid p); reflexivity.
  - apply ball_image; [now apply rigid_turned| |reflexivity]. apply pteq_sym. apply (C48_rigid n (co p) m (co (center b)) (quat_default (H := Rnum 0))).
Qed.
Theorem C48_ball_quaternion : forall (eps : Epsilon) (b : ball R) q p, unit_quat q -> exact_turn eps q p (center b) ->
  ball_moved 3 (turned_q q (co p)) b (ball_rotate_point_q b q p) /\ ball_moved 3 (turned_q q (co (center b))) b b.
Proof.
  intros eps b q p U Ex. split; (apply ball_image; [now apply rigid_turned_q| |reflexivity]).
  - intros i Hi. now apply (point_rotate_q_co eps).
  - apply pteq_sym. apply (C48_rigid 3 (co p) (rot_default 3) (co (center b)) q).
Qed.

(** ** AxisBox: translations only (rotations of an AxisBox do not exist in the API) *)
Theorem C48_box : forall (eps : Epsilon) n (b : axisbox R) v p k, box_valid b = true -> dims n p -> (k < 2 ^ N.of_nat n)%N ->
  (forall j, (j < 2 ^ N.of_nat n)%N -> pteq n (co (box_corner n (box_shift n b v) j)) (shifted (co v) (co (box_corner n b j)))) /\
  same_set (in_box n (box_shift n b v)) (image n (shifted (co v)) (in_box n b)) /\ box_valid (box_shift n b v) = valid v /\
  (exists w, box_move_corner n b p k = box_shift n b w) /\ box_corner n (box_move_corner n b p k) k = p /\
  (exists w, box_move_center n b p = box_shift n b w) /\ box_center n (box_move_center n b p) = p.
Proof.
  intros eps n b v p k V D Hk. split; [intros j Hj i Hi; unfold shifted; now apply shift_corner|]. split; [|split; [|split; [eexists; reflexivity|split; [now apply move_corner_spec|split; [eexists; reflexivity|now apply move_center_spec]]]]].
  - intros y. split.
    + intros I. exists (fun i => y i - co v i). split.
      * intros i Hi. specialize (I i Hi). destruct (shift_coord eps n b v i Hi) as [E1 E2]. rewrite E1, E2 in I. lra.
      * intros i Hi. unfold shifted. ring.
    + intros (x & I & E) i Hi. specialize (I i Hi). rewrite (E i Hi). unfold shifted. destruct (shift_coord eps n b v i Hi) as [E1 E2]. rewrite E1, E2. lra.
  - unfold box_valid, box_shift in *. cbn [low high vec_add valid]. apply andb_prop in V. destruct V as [-> ->]. now destruct (valid v).
Qed.

(** ** RotBox *)
Lemma rb_center_moved (eps : Epsilon) n f (r r' : rotbox R) : rigid n f -> (forall s, pteq n (rb_at n r' s) (f (rb_at n r s))) -> pteq n (co (rb_center n r')) (f (co (rb_center n r))).
Proof.
  intros Rf P i Hi. rewrite (rb_center_co eps n r' i Hi), (P _ i Hi). apply (rigid_ext n f _ _ Rf); auto. intros j Hj. symmetry. now apply (rb_center_co eps).
Qed.
Lemma rb_shift_at (eps : Epsilon) n (r : rotbox R) v s : pteq n (rb_at n (rb_shift n r v) s) (shifted (co v) (rb_at n r s)).
Proof. intros i Hi. unfold rb_at, rb_shift, shifted. cbn [corner0 rsize orient]. rewrite add_co by auto. ring. Qed.
Theorem C48_rotbox_shift : forall (eps : Epsilon) n (r : rotbox R) v p k,
  rb_moved eps n (shifted (co v)) r (rb_shift n r v) /\ rb_valid (rb_shift n r v) = rb_valid r && valid v /\
  (exists w, rb_moved eps n (shifted w) r (rb_move_center n r p)) /\ pteq n (co (rb_center n (rb_move_center n r p))) (co p) /\
  (if (k <? 2 ^ N.of_nat n)%N then exists r' c, rb_move_corner n r p k = Ret r' /\ (exists w, rb_moved eps n (shifted w) r r') /\ rb_corner n r' k = Ret c /\ pteq n (co c) (co p)
   else rb_move_corner n r p k = AssertFail).
Proof.
  intros eps n r v p k. assert (Sh : forall v, rb_moved eps n (shifted (co v)) r (rb_shift n r v)) by (intros; apply rb_image; [apply rigid_shifted|intros s; apply (rb_shift_at eps)]).
  split; auto. split; [unfold rb_valid, rb_shift; cbn; destruct (valid (corner0 r)), (valid v), (valid (rsize r)), (mvalid (orient r)); reflexivity|].
  split; [eexists; apply Sh|]. split; [|destruct (N.ltb_spec k (2 ^ N.of_nat n)) as [L|L]].
  - intros i Hi. unfold rb_move_center. rewrite (rb_center_moved eps n _ r _ (rigid_shifted n _) (rb_shift_at eps n r _) i Hi). unfold shifted. rewrite sub_co by auto. ring.
  - unfold rb_move_corner. destruct (rb_corner_defined eps n r k L) as [c C]. rewrite C. cbn [obind].
    destruct (Sh (vec_sub n p c)) as [Cn _]. destruct (Cn k c C) as (c' & C' & E). exists (rb_shift n r (vec_sub n p c)), c'. split; [reflexivity|]. split; [eexists; apply Sh|]. split; auto.
    intros i Hi. rewrite (E i Hi). unfold shifted. rewrite sub_co by auto. ring.
  - unfold rb_move_corner, rb_corner. apply N.ltb_ge in L. rewrite L. reflexivity.
Qed.
Theorem C48_rotbox_rotate : forall (eps : Epsilon) n (r r' : rotbox R) m, valid_orth n (orient r) -> orthogonal n (ent m) ->
  (forall p, rb_rotate_point n r m p = Ret r' -> rb_moved eps n (turned n m (co p)) r r' /\ rb_valid r' = rb_valid r && mvalid m && valid p) /\
  (forall k, rb_rotate_corner n r m k = Ret r' -> exists c c', rb_corner n r k = Ret c /\ rb_moved eps n (turned n m (co c)) r r' /\ rb_corner n r' k = Ret c' /\ pteq n (co c') (co c)) /\
  (rb_rotate_center n r m = Ret r' -> rb_moved eps n (turned n m (co (rb_center n r))) r r' /\ pteq n (co (rb_center n r')) (co (rb_center n r))).
Proof.
  intros eps n r r' m Or O.
  assert (Fx : forall x, pteq n (turned n m x x) x) by (intros x i Hi; unfold turned; rewrite Rsum_zero; [ring|intros; ring]).
  assert (Ro : forall p, rb_rotate_point n r m p = Ret r' -> rb_moved eps n (turned n m (co p)) r r' /\ rb_valid r' = rb_valid r && mvalid m && valid p /\ forall s, pteq n (rb_at n r' s) (turned n m (co p) (rb_at n r s))).
  { intros p E. destruct (rotate_point_spec eps n r r' m p Or (fun _ => O) E) as (_ & V & _ & _ & P). split; auto. apply rb_image; auto. now apply rigid_turned. }
  split; [intros p E; destruct (Ro p E) as (A & B & _); auto|]. split.
  - intros k E. unfold rb_rotate_corner in E. destruct (rb_corner n r k) as [c| | |] eqn:C; cbn [obind] in E; try discriminate. destruct (Ro c E) as (A & _).
    destruct A as [Cn Sn]. destruct (Cn k c C) as (c' & C' & P). exists c, c'. split; auto. split; [split; auto|]. split; auto. eapply pteq_trans; [exact P|apply Fx].
  - intros E. destruct (Ro _ E) as (A & _ & P). split; auto. eapply pteq_trans; [apply (rb_center_moved eps n _ r r' (rigid_turned n m _ O) P)|apply Fx].
Qed.
Theorem C48_rotbox_quaternion : forall (eps : Epsilon) (r r' : rotbox R) q, mdims 3 (me (orient r)) -> valid_orth 3 (orient r) -> unit_quat q ->
  (forall k b, (k < 3)%nat -> exact_pair eps (qv q) (mkC (tab 3 (ent (orient r) k)) b)) ->
  (forall p, exact_turn eps q p (corner0 r) -> rb_rotate_point_q r q p = Ret r' -> rb_moved eps 3 (turned_q q (co p)) r r') /\
  (forall k c, rb_corner 3 r k = Ret c -> exact_turn eps q c (corner0 r) -> rb_rotate_corner_q 3 r q k = Ret r' ->
     exists c', rb_moved eps 3 (turned_q q (co c)) r r' /\ rb_corner 3 r' k = Ret c' /\ pteq 3 (co c') (co c)) /\
  (exact_turn eps q (rb_center 3 r) (corner0 r) -> rb_rotate_center_q 3 r q = Ret r' ->
     rb_moved eps 3 (turned_q q (co (rb_center 3 r))) r r' /\ pteq 3 (co (rb_center 3 r')) (co (rb_center 3 r))).
Proof.
  intros eps r r' q D O U Ex.
  assert (Fx : forall x, pteq 3 (turned_q q x x) x) by (intros x; apply (C48_rigid 3 x (rot_default 3) x q)).
  assert (P : forall p, exact_turn eps q p (corner0 r) -> rb_rotate_point_q r q p = Ret r' -> forall s, pteq 3 (rb_at 3 r' s) (turned_q q (co p) (rb_at 3 r s))).
  { intros p X E s i Hi. unfold rb_rotate_point_q in E. destruct (rot_rotate_q (orient r) q) as [o| | |] eqn:Q; try discriminate. cbn [obind] in E. injection E as <-.
    destruct (rot_rotate_q_spec eps (orient r) q o D O U Ex Q) as (M & _). rewrite turned_q_matrix by auto. unfold rb_at. cbn [corner0 rsize orient].
    rewrite (point_rotate_q_co eps) by auto. rewrite turned_q_matrix by auto. unfold mapply. cbn [Rsum]. rewrite !M by lia. unfold mmul, mtr. cbn [Rsum]. ring. }
  assert (Ro : forall p, exact_turn eps q p (corner0 r) -> rb_rotate_point_q r q p = Ret r' -> rb_moved eps 3 (turned_q q (co p)) r r').
  { intros p X E. apply rb_image; [now apply rigid_turned_q|now apply P]. }
  split; auto. split.
  - intros k c C X E. unfold rb_rotate_corner_q in E. rewrite C in E. cbn [obind] in E. destruct (Ro c X E) as [Cn Sn]. destruct (Cn k c C) as (c' & C' & P'). exists c'. split; [split; auto|]. split; auto.
    eapply pteq_trans; [exact P'|apply Fx].
  - intros X E. split; [now apply Ro|]. eapply pteq_trans; [apply (rb_center_moved eps 3 _ r r' (rigid_turned_q q _ U) (P _ X E))|apply Fx].
Qed.

(** ** Line and Polygon<2> *)
Lemma turned_fix n m x : pteq n (turned n m x x) x.
Proof. intros i Hi; unfold turned; rewrite Rsum_zero; [ring|intros; ring]. Qed.
Theorem C48_list_shift : forall (eps : Epsilon) n (l : list (coords R)) v p k,
  list_moved n (valid v) (shifted (co v)) l (poly_shift n l v) /\
  match poly_corner l k with
  | Ret c => exists l' c', poly_move_corner_to n l p k = Ret l' /\ (exists w, list_moved n (valid p && valid c) (shifted w) l l') /\ poly_corner l' k = Ret c' /\ pteq n (co c') (co p)
  | _ => poly_move_corner_to n l p k = Undef
  end /\
  (l <> [] -> (exists w, list_moved n (valid p && forallb valid l) (shifted w) l (poly_move_center_to n l p)) /\ pteq n (co (poly_center n (poly_move_center_to n l p))) (co p)).
Proof.
  intros eps n l v p k. assert (Sh : forall v, list_moved n (valid v) (shifted (co v)) l (poly_shift n l v)).
  { intros w. apply map_moved. intros c _. split; [apply (pteq_shift n eps)|reflexivity]. }
  split; auto. split.
  - unfold poly_move_corner_to. destruct (poly_corner l k) as [c| | |] eqn:C; [|reflexivity| |]; try (unfold poly_corner, oget in C; destruct (@nth_error (point R) l k); discriminate).
    cbn [obind]. pose proof (Sh (vec_sub n p c)) as M. destruct (moved_nth n _ _ _ _ _ _ M C) as (c' & C' & P & _). exists (poly_shift n l (vec_sub n p c)), c'. split; auto. split; [eexists; exact M|]. split; auto.
    intros i Hi. rewrite (P i Hi). unfold shifted. rewrite sub_co by auto. ring.
  - intros N. unfold poly_move_center_to. pose proof (Sh (vec_sub n p (poly_center n l))) as M. split.
    + eexists. assert (forallb valid l = valid (poly_center n l)) as ->; [|exact M]. symmetry. apply (bary_spec eps n l); auto.
    + intros i Hi. rewrite (center_moved eps n _ _ _ _ (rigid_shifted n _) N M i Hi). unfold shifted. rewrite sub_co by auto. ring.
Qed.
Theorem C48_list_rotate : forall (eps : Epsilon) n (l : list (coords R)) m p k, orthogonal n (ent m) ->
  list_moved n (mvalid m && valid p) (turned n m (co p)) l (poly_rotate_point n l m p) /\
  match poly_corner l k with
  | Ret c => exists l' c', poly_rotate_corner n l m k = Ret l' /\ list_moved n (mvalid m && valid c) (turned n m (co c)) l l' /\ poly_corner l' k = Ret c' /\ pteq n (co c') (co c)
  | _ => poly_rotate_corner n l m k = Undef
  end /\
  (l <> [] -> list_moved n (mvalid m && forallb valid l) (turned n m (co (poly_center n l))) l (poly_rotate_center n l m) /\
     pteq n (co (poly_center n (poly_rotate_center n l m))) (co (poly_center n l))).
Proof.
  intros eps n l m p k O. assert (Ro : forall p, list_moved n (mvalid m && valid p) (turned n m (co p)) l (poly_rotate_point n l m p)).
  { intros w. apply map_moved. intros c _. split; [intros i Hi; now apply (point_rotate_co eps)|]. unfold point_rotate, vec_add, prod_vm, inv_prod_mv, vec_sub. cbn [valid]. destruct (valid w), (valid c), (mvalid m); reflexivity. }
  split; auto. split.
  - unfold poly_rotate_corner. destruct (poly_corner l k) as [c| | |] eqn:C; [|reflexivity| |]; try (unfold poly_corner, oget in C; destruct (@nth_error (point R) l k); discriminate).
    cbn [obind]. destruct (moved_nth n _ _ _ _ _ _ (Ro c) C) as (c' & C' & P & _). exists (poly_rotate_point n l m c), c'. split; auto. split; [apply Ro|]. split; auto. eapply pteq_trans; [exact P|apply turned_fix].
  - intros N. unfold poly_rotate_center. pose proof (Ro (poly_center n l)) as M. split.
    + assert (forallb valid l = valid (poly_center n l)) as ->; [|exact M]. symmetry. apply (bary_spec eps n l); auto.
    + eapply pteq_trans; [apply (center_moved eps n _ _ _ _ (rigid_turned n m _ O) N M)|apply turned_fix].
Qed.

(** ** Polygon<dim> *)
Lemma pg_center_moved (eps : Epsilon) n f p o' c : rigid n f -> plane_moved n f (pplane p) o' -> pg_center n p = Ret c ->
  exists c', pg_center n (mkP o' (pcorners p)) = Ret c' /\ pteq n (co c') (f (co c)).
Proof. intros Rf M E. destruct (convert_moved eps n f _ _ _ _ M Rf E) as (c' & E' & P & _). exists c'. auto. Qed.
Lemma shift_plane (eps : Epsilon) n o v : valid v = true -> valid (porigin o) = true -> plane_moved n (shifted (co v)) o (orient_shift n o v).
Proof.
  intros V W. apply (plane_linear n _ delta (co v)).
  - intros x i Hi. unfold shifted. rewrite (Rsum_delta_r n x i Hi). ring.
  - unfold orient_shift. rewrite W. cbn. now rewrite V, W.
  - unfold orient_shift. now rewrite W.
  - unfold orient_shift. now rewrite W.
  - unfold orient_shift. rewrite W. apply (pteq_shift n eps).
  - intros _ i Hi. unfold orient_shift. rewrite W. cbn [pax0]. now rewrite (Rsum_delta_r n _ i Hi).
  - intros _ i Hi. unfold orient_shift. rewrite W. cbn [pax1]. now rewrite (Rsum_delta_r n _ i Hi).
Qed.
Theorem C48_polygon_center : forall (eps : Epsilon) n (p : polygon R) cs, (0 < pg_num p)%nat -> length cs = pg_num p ->
  (forall i, (i < pg_num p)%nat -> pg_corner n p i = Ret (nth i cs (coords_default n))) ->
  exists c, pg_center n p = Ret c /\ forall i, (i < n)%nat -> co c i = mean_coord cs i.
Proof. exact center_mean. Qed.
Theorem C48_polygon_shift : forall (eps : Epsilon) n (p : polygon R) v x k c, valid v = true -> valid x = true ->
  pg_moved eps n (shifted (co v)) p (pg_shift n p v) /\
  (pg_corner n p k = Ret c -> valid c = true -> exists p' c', pg_move_corner_to n p x k = Ret p' /\ (exists w, pg_moved eps n (shifted w) p p') /\ pg_corner n p' k = Ret c' /\ pteq n (co c') (co x)) /\
  (pg_center n p = Ret c -> valid c = true -> exists p' c', pg_move_center_to n p x = Ret p' /\ (exists w, pg_moved eps n (shifted w) p p') /\ pg_center n p' = Ret c' /\ pteq n (co c') (co x)).
Proof.
  intros eps n p v x k c V Vx.
  assert (Sh : forall v, valid v = true -> pg_moved eps n (shifted (co v)) p (pg_shift n p v)).
  { clear V v. intros v V. unfold pg_shift. destruct (valid (porigin (pplane p))) eqn:W.
    - apply plane_image; [apply rigid_shifted|now apply (shift_plane eps)].
    - split; [reflexivity|]. intros i d. unfold pg_corner. destruct (poly_corner (pcorners p) i); try discriminate. cbn [obind]. intros E. apply (convert_inv eps) in E. destruct E as ((W' & _) & _). congruence. }
  split; auto. split; intros E Vc.
  - unfold pg_move_corner_to. rewrite E. cbn [obind]. assert (Vd : valid (vec_sub n x c) = true) by (cbn; now rewrite Vx, Vc).
    destruct (Sh _ Vd) as [N M]. destruct (M k c E) as (c' & E' & P & _). exists (pg_shift n p (vec_sub n x c)), c'. split; auto. split; [eexists; split; eauto|]. split; auto.
    intros i Hi. rewrite (P i Hi). unfold shifted. rewrite sub_co by auto. ring.
  - unfold pg_move_center_to. rewrite E. cbn [obind]. assert (Vd : valid (vec_sub n x c) = true) by (cbn; now rewrite Vx, Vc).
    assert (W : valid (porigin (pplane p)) = true). { apply (convert_inv eps) in E. apply E. }
    destruct (pg_center_moved eps n _ p _ c (rigid_shifted n _) (shift_plane eps n _ _ Vd W) E) as (c' & E' & P). exists (pg_shift n p (vec_sub n x c)), c'. split; auto. split; [eexists; apply (Sh _ Vd)|]. split; auto.
    intros i Hi. rewrite (P i Hi). unfold shifted. rewrite sub_co by auto. ring.
Qed.
Lemma prod_vm_co (eps : Epsilon) n (v : coords R) m i : (i < n)%nat -> co (prod_vm n v m) i = Rsum n (fun j => co v j * ent m j i).
Proof. intros Hi. change (prod_vm n v m) with (vec_rotate n v m). rewrite rotate_co by auto. unfold mapply, mtr. apply Rsum_ext. intros. ring. Qed.
Lemma turned_affine n m p x : pteq n (turned n m p x) (fun i => (p i - Rsum n (fun j => p j * ent m j i)) + Rsum n (fun j => x j * ent m j i)).
Proof. intros i Hi. unfold turned. rewrite (Rsum_ext n _ (fun j => x j * ent m j i - p j * ent m j i)) by (intros; ring). rewrite Rsum_minus. ring. Qed.
Lemma rotate_plane (eps : Epsilon) n o m x : mvalid m = true -> valid x = true -> plane_moved n (turned n m (co x)) o (orient_rotate n o m x).
Proof.
  intros V Vx. apply (plane_linear n _ (ent m) (fun i => co x i - Rsum n (fun j => co x j * ent m j i))).
  - intros y. apply turned_affine.
  - unfold orient_rotate, point_rotate, vec_add, prod_vm, inv_prod_mv, vec_sub. cbn. rewrite V, Vx. now destruct (valid (porigin o)).
  - cbn. rewrite V. now destruct (valid (pax0 o)).
  - cbn. rewrite V. now destruct (valid (pax1 o)).
  - intros i Hi. now apply (point_rotate_co eps).
  - intros _ i Hi. now apply (prod_vm_co eps).
  - intros _ i Hi. now apply (prod_vm_co eps).
Qed.
Lemma rotate2_plane (eps : Epsilon) n o m x c : plane_good o -> mvalid m = true -> orient_convert n o x = Ret c ->
  exists o', orient_rotate2 n o m x = Ret o' /\ plane_moved n (turned n m (co c)) o o'.
Proof.
  intros G V E. destruct (convert_inv eps n o x c E) as ((W & K0 & K1) & _ & P). unfold orient_rotate2, orient_rotate2_with. rewrite W. cbn [oassert].
  assert (Z : forall x, x = 0 -> neqb x n0 = true) by (intros y ->; unfold n0; cbn [neqb nofZ Rnum]; apply Req_bool_true; reflexivity).
  assert (Rf : forall y, pteq n (turned n m (co c) y) (fun i => (co c i - Rsum n (fun j => co c j * ent m j i)) + Rsum n (fun j => y j * ent m j i))) by (intros; apply turned_affine).
  destruct (valid (pax0 o)) eqn:V0; cbn [negb].
  - destruct (valid (pax1 o)) eqn:V1.
    + eexists. split; [reflexivity|]. apply (plane_linear n _ _ _ _ _ Rf); cbn [porigin pax0 pax1].
      * cbn. now rewrite W, V0, V1, V.
      * cbn. now rewrite V0, V.
      * cbn. now rewrite V1, V.
      * intros i Hi. unfold turned. rewrite add_co, sub_co, add_co by auto. rewrite (prod_vm_co eps) by auto. rewrite (P i Hi). unfold plane_at. rewrite V0, V1.
        rewrite (Rsum_ext n (fun j => co (vec_add n (vec_scale n (pax0 o) (at_ x 0)) (vec_scale n (pax1 o) (at_ x 1))) j * ent m j i) (fun j => - ((co (porigin o) j - co c j) * ent m j i))).
        2: { intros j Hj. rewrite add_co by auto. rewrite (P j Hj). unfold plane_at. rewrite V0, V1. unfold vec_scale. rewrite !co_tab by auto. cbn [nmul Rnum]. change (at_ x 0) with (co x 0). change (at_ x 1) with (co x 1). change (at_ (pax0 o) j) with (co (pax0 o) j). change (at_ (pax1 o) j) with (co (pax1 o) j). ring. }
        rewrite (Rsum_ext n (fun j => - _) (fun j => (-1) * ((co (porigin o) j - co c j) * ent m j i))) by (intros; ring). rewrite Rsum_scal_l.
        unfold vec_scale. rewrite !co_tab by auto. cbn [nmul Rnum]. change (at_ x 0) with (co x 0). change (at_ x 1) with (co x 1). change (at_ (pax0 o) i) with (co (pax0 o) i). change (at_ (pax1 o) i) with (co (pax1 o) i). ring.
      * intros _ i Hi. now apply (prod_vm_co eps).
      * intros _ i Hi. now apply (prod_vm_co eps).
    + change (at_ x 1) with (co x 1). rewrite (Z _ (K1 eq_refl)). cbn [oassert]. eexists. split; [reflexivity|]. apply (plane_linear n _ _ _ _ _ Rf); cbn [porigin pax0 pax1].
      * cbn. now rewrite W, V0, V.
      * cbn. now rewrite V0, V.
      * reflexivity.
      * intros i Hi. unfold turned. rewrite add_co, sub_co by auto. rewrite (prod_vm_co eps) by auto. rewrite (P i Hi). unfold plane_at. rewrite V0, V1.
        rewrite (Rsum_ext n (fun j => co (vec_scale n (pax0 o) (at_ x 0)) j * ent m j i) (fun j => - ((co (porigin o) j - co c j) * ent m j i))).
        2: { intros j Hj. rewrite (P j Hj). unfold plane_at. rewrite V0, V1. unfold vec_scale. rewrite !co_tab by auto. cbn [nmul Rnum]. change (at_ x 0) with (co x 0). change (at_ (pax0 o) j) with (co (pax0 o) j). ring. }
        rewrite (Rsum_ext n (fun j => - _) (fun j => (-1) * ((co (porigin o) j - co c j) * ent m j i))) by (intros; ring). rewrite Rsum_scal_l.
        unfold vec_scale. rewrite !co_tab by auto. cbn [nmul Rnum]. change (at_ x 0) with (co x 0). change (at_ (pax0 o) i) with (co (pax0 o) i). ring.
      * intros _ i Hi. now apply (prod_vm_co eps).
      * intros K. congruence.
  - assert (V1 : valid (pax1 o) = false). { destruct (valid (pax1 o)) eqn:V1; auto. specialize (G V1). congruence. }
    change (at_ x 0) with (co x 0); change (at_ x 1) with (co x 1); rewrite (Z _ (K0 eq_refl)), (Z _ (K1 V1)). cbn [oassert andb]. exists o. split; [reflexivity|]. split; auto. split; auto. split; auto. intros p _ i Hi.
    assert (Q : pteq n (plane_at o p) (co c)) by (intros j Hj; rewrite (P j Hj); unfold plane_at; now rewrite V0, V1).
    rewrite (Q i Hi). rewrite (turned_ext n m (co c) (co c) _ (co c)) by (auto; apply pteq_refl). symmetry. now apply turned_fix.
Qed.
Theorem C48_polygon_rotate : forall (eps : Epsilon) n (p : polygon R) m x k c, plane_good (pplane p) -> mvalid m = true -> orthogonal n (ent m) ->
  (valid x = true -> pg_moved eps n (turned n m (co x)) p (pg_rotate_point n p m x)) /\
  (pg_corner n p k = Ret c -> exists p' c', pg_rotate_corner n p m k = Ret p' /\ pg_moved eps n (turned n m (co c)) p p' /\ pg_corner n p' k = Ret c' /\ pteq n (co c') (co c)) /\
  (pg_num p = 0%nat -> pg_rotate_center n p m = Ret p) /\
  (pg_num p <> 0%nat -> pg_center n p = Ret c -> exists p' c', pg_rotate_center n p m = Ret p' /\ pg_moved eps n (turned n m (co c)) p p' /\ pg_center n p' = Ret c' /\ pteq n (co c') (co c)).
Proof.
  intros eps n p m x k c G V O. split; [|split; [|split]].
  - intros Vx. apply plane_image; [now apply rigid_turned|now apply (rotate_plane eps)].
  - unfold pg_corner at 1. intros E. unfold pg_rotate_corner. destruct (poly_corner (pcorners p) k) as [y| | |] eqn:Y; try discriminate. cbn [obind] in *.
    destruct (rotate2_plane eps n _ m y c G V E) as (o' & E' & M). rewrite E'. cbn [obind]. pose proof (plane_image eps n _ p o' (rigid_turned n m _ O) M) as PM.
    destruct PM as [PN PM]. destruct (PM k c) as (c' & C' & P & _). { unfold pg_corner. now rewrite Y. }
    exists (mkP o' (pcorners p)), c'. split; auto. split; [split; auto|]. split; auto. eapply pteq_trans; [exact P|apply turned_fix].
  - intros N. unfold pg_rotate_center. now rewrite N.
  - intros N E. unfold pg_rotate_center. destruct (Nat.ltb_spec 0 (pg_num p)); [|lia]. destruct (rotate2_plane eps n _ m _ c G V E) as (o' & E' & M). rewrite E'. cbn [obind].
    destruct (pg_center_moved eps n _ p o' c (rigid_turned n m _ O) M E) as (c' & C' & P). exists (mkP o' (pcorners p)), c'. split; auto. split; [apply plane_image; auto; now apply rigid_turned|]. split; auto. eapply pteq_trans; [exact P|apply turned_fix].
Qed.
(** Polygon<3> and quaternions: rotatePoint is right. *)
Lemma rotate_vec_q (eps : Epsilon) v q i : (i < 3)%nat -> unit_quat q -> exact_pair eps (qv q) v -> co (vec_rotate_q v q) i = Rsum 3 (fun j => co v j * mtr (ham_matrix (q4 q)) j i).
Proof. intros Hi U E. rewrite (ham_matrix_acts eps v q U E i Hi) || rewrite (ham_matrix_acts eps q v U E i Hi). unfold mapply, mtr. apply Rsum_ext. intros. ring. Qed.
Lemma turned_q_affine q p x : unit_quat q -> pteq 3 (turned_q q p x) (fun i => (p i - mapply 3 (ham_matrix (q4 q)) p i) + Rsum 3 (fun j => x j * mtr (ham_matrix (q4 q)) j i)).
Proof. intros U i Hi. rewrite turned_q_matrix by auto. unfold mapply, mtr. cbn [Rsum]. ring. Qed.
Theorem C48_polygon_quaternion_point : forall (eps : Epsilon) (p : polygon R) q x, unit_quat q -> valid (qv q) = true -> valid x = true ->
  exact_turn eps q x (porigin (pplane p)) -> exact_pair eps (qv q) (pax0 (pplane p)) -> exact_pair eps (qv q) (pax1 (pplane p)) ->
  pg_moved eps 3 (turned_q q (co x)) p (pg_rotate_point_q p q x).
Proof.
  intros eps p q x U V Vx Eo E0 E1. apply plane_image; [now apply rigid_turned_q|]. apply (plane_linear 3 _ _ _ _ _ (fun y => turned_q_affine q (co x) y U)).
  - cbn. rewrite V, Vx. now destruct (valid (porigin (pplane p))).
  - cbn. rewrite V. now destruct (valid (pax0 (pplane p))).
  - cbn. rewrite V. now destruct (valid (pax1 (pplane p))).
  - intros i Hi. now apply (point_rotate_q_co eps).
  - intros _ i Hi. now apply (rotate_vec_q eps).
  - intros _ i Hi. now apply (rotate_vec_q eps).
Qed.
(** rotateCorner and rotateCenter turn the polygon about the origin of its plane (the first
    corner ever added) instead of about the corner or the centre named.  Distances between
    corners are kept. *)
Theorem C48_polygon_quaternion_partial : forall (eps : Epsilon) (p p' : polygon R) q, unit_quat q -> valid (qv q) = true ->
  exact_pair eps (qv q) (pax0 (pplane p)) -> exact_pair eps (qv q) (pax1 (pplane p)) ->
  plane_good (pplane p) -> (exists k, pg_rotate_corner_q p q k = Ret p') \/ (pg_num p <> 0%nat /\ pg_rotate_center_q p q = Ret p') ->
  pg_moved eps 3 (turned_q q (co (porigin (pplane p)))) p p'.
Proof.
  intros eps p p' q U V E0 E1 G H.
  assert (K : forall y o', orient_rotate2_q (pplane p) q y = Ret o' -> pg_moved eps 3 (turned_q q (co (porigin (pplane p)))) p (mkP o' (pcorners p))).
  { intros y o' E. unfold orient_rotate2_q, orient_rotate2_with in E. destruct (valid (porigin (pplane p))) eqn:W; [|discriminate]. cbn [oassert] in E.
    apply plane_image; [now apply rigid_turned_q|].
    assert (Fx : forall x, pteq 3 (turned_q q x x) x) by (intros z; apply (C48_rigid 3 z (rot_default 3) z q)).
    destruct (valid (pax0 (pplane p))) eqn:V0; cbn [negb] in E.
    - apply (plane_linear 3 _ _ _ _ _ (fun y => turned_q_affine q _ y U)); destruct (valid (pax1 (pplane p))) eqn:V1.
      all: try (destruct (neqb (at_ y 1) n0); [|discriminate]; cbn [oassert] in E).
      all: injection E as <-; cbn [porigin pax0 pax1]; try (intros; congruence).
      + cbn. now rewrite W, V0, V1, V.
      + cbn. now rewrite W, V0, V.
      + cbn. now rewrite V0, V.
      + cbn. now rewrite V0, V.
      + cbn. now rewrite V1, V.
      + intros i Hi. rewrite (Fx _ i Hi). rewrite add_co, sub_co by auto. ring.
      + intros i Hi. rewrite (Fx _ i Hi). rewrite add_co, sub_co by auto. ring.
      + intros _ i Hi. now apply (rotate_vec_q eps).
      + intros _ i Hi. now apply (rotate_vec_q eps).
      + intros _ i Hi. now apply (rotate_vec_q eps).
    - destruct (neqb (at_ y 0) n0 && neqb (at_ y 1) n0); [|discriminate]. injection E as <-.
      assert (V1 : valid (pax1 (pplane p)) = false). { destruct (valid (pax1 (pplane p))) eqn:V1; auto. specialize (G V1). congruence. }
      split; auto. split; auto. split; auto. intros z _ i Hi.
      assert (Q : pteq 3 (plane_at (pplane p) z) (co (porigin (pplane p)))) by (intros j Hj; unfold plane_at; rewrite V0, V1; ring).
      rewrite (Q i Hi). rewrite (rigid_ext 3 _ _ _ (rigid_turned_q q _ U) Q i Hi). symmetry. now apply Fx. }
  destruct H as [[k E]|[N E]].
  - unfold pg_rotate_corner_q in E. destruct (poly_corner (pcorners p) k) as [y| | |]; try discriminate. cbn [obind] in E.
    destruct (orient_rotate2_q (pplane p) q y) as [o'| | |] eqn:O; try discriminate. injection E as <-. eauto.
  - unfold pg_rotate_center_q in E. destruct (Nat.ltb_spec 0 (pg_num p)); [|lia].
    destruct (orient_rotate2_q (pplane p) q _) as [o'| | |] eqn:O; try discriminate. injection E as <-. eauto.
Qed.
(** A triangle made with addCorner: the corner that rotateCorner should hold moves. *)
Definition tri0 : point R := mkC [0; 0; 0] true.
Definition tri1 : point R := mkC [1; 0; 0] true.
Definition tri2 : point R := mkC [0; 1; 0] true.
Definition tri3d : polygon R := mkP (mkO tri0 tri1 tri2) [mkC [0; 0] true; mkC [1; 0] true; mkC [0; 1] true].
Ltac rlist := repeat match goal with |- _ :: _ = _ :: _ => f_equal end.
Lemma tri_built : exists a b, pg_add (H := Rnum 0) 3 (pg_default (H := Rnum 0) 3) 0 tri0 0 = Ret (true, a) /\ pg_add (H := Rnum 0) 3 a 1 tri1 0 = Ret (true, b) /\ pg_add (H := Rnum 0) 3 b 2 tri2 0 = Ret (true, tri3d).
Proof.
  eexists. eexists. split; [reflexivity|]. 
  assert (A : forall (a : coords R) (c d : R), co a 0 = c -> co a 1 = d -> co a 2 = 0 -> inner 3 (co a) (co a) = c * c + d * d) by (intros a c d E0 E1 E2; unfold inner; cbn [Rsum]; rewrite E0, E1, E2; ring).
  split.
  - unfold pg_add, orient_expand. cbn [pplane pcorners porigin pax0 pax1 valid negb pg_default orient_default set_valid coords_default].
    set (s := vec_sub (H := Rnum 0) 3 tri1 (set_valid tri0 true)).
    assert (S0 : co s 0 = 1) by (unfold s; rewrite sub_co by lia; cbn; ring). assert (S1 : co s 1 = 0) by (unfold s; rewrite sub_co by lia; cbn; ring). assert (S2 : co s 2 = 0) by (unfold s; rewrite sub_co by lia; cbn; ring).
    rewrite dot_inner, (A s 1 0 S0 S1 S2). cbn [nleb nmul Rnum]. rewrite Rle_bool_false by (ring_simplify (sqr_mag (H := Rnum 0) 3 s * 0); lra).
    assert (Mg : mag (H := Rnum 0) 3 s = 1). { rewrite (mag_norm 0). unfold norm, norm2. rewrite (A s 1 0 S0 S1 S2). replace (1 * 1 + 0 * 0) with 1 by ring. apply sqrt_1. }
    rewrite Mg. reflexivity.
  - unfold pg_add, orient_expand. cbn [pplane pcorners porigin pax0 pax1 valid negb pg_default orient_default set_valid coords_default].
    set (s := vec_sub (H := Rnum 0) 3 tri2 (set_valid tri0 true)). set (s1 := set_valid (vec_div (H := Rnum 0) 3 (vec_sub (H := Rnum 0) 3 tri1 (set_valid tri0 true)) 1) true).
    assert (S0 : co s 0 = 0) by (unfold s; rewrite sub_co by lia; cbn; ring). assert (S1 : co s 1 = 1) by (unfold s; rewrite sub_co by lia; cbn; ring). assert (S2 : co s 2 = 0) by (unfold s; rewrite sub_co by lia; cbn; ring).
    assert (T1 : s1 = tri1). { apply (coords_eq 3); [reflexivity|reflexivity|reflexivity|]. intros i Hi. unfold s1, set_valid, vec_div, vec_sub. destruct i as [|[|[|i]]]; [| | |lia]; cbn; lra. }
    rewrite dot_inner, (A s 0 1 S0 S1 S2). cbn [nleb nmul Rnum]. rewrite Rle_bool_false by (ring_simplify (sqr_mag (H := Rnum 0) 3 s * 0); lra).
    rewrite T1. assert (X : dot (H := Rnum 0) 3 s tri1 = 0). { rewrite dot_inner. unfold inner. cbn [Rsum]. rewrite S0, S1, S2. cbn. ring. } rewrite X.
    set (t := vec_sub (H := Rnum 0) 3 s (vec_scale (H := Rnum 0) 3 tri1 0)). 
    assert (Q0 : co t 0 = 0) by (unfold t; rewrite sub_co, S0 by lia; cbn; ring). assert (Q1 : co t 1 = 1) by (unfold t; rewrite sub_co, S1 by lia; cbn; ring). assert (Q2 : co t 2 = 0) by (unfold t; rewrite sub_co, S2 by lia; cbn; ring).
    rewrite dot_inner. assert (Y : inner 3 (co t) (co s) = 1). { unfold inner. cbn [Rsum]. rewrite S0, S1, S2, Q0, Q1, Q2. ring. } rewrite Y. rewrite Rle_bool_false by (ring_simplify (sqr_mag (H := Rnum 0) 3 s * 0); lra).
    assert (Mg : mag (H := Rnum 0) 3 t = 1). { rewrite (mag_norm 0). unfold norm, norm2. rewrite (A t 0 1 Q0 Q1 Q2). replace (0 * 0 + 1 * 1) with 1 by ring. apply sqrt_1. }
    rewrite Mg. unfold poly_add, list_insert, pt2. cbn [length Nat.leb firstn skipn app obind]. unfold tri3d. do 3 f_equal.
    unfold set_valid, tri2. f_equal. f_equal. unfold vec_div. cbn [el tab map seq]. rlist; cbn [ndiv Rnum]; change (at_ (H := Rnum 0) t 0) with (co t 0); change (at_ (H := Rnum 0) t 1) with (co t 1); change (at_ (H := Rnum 0) t 2) with (co t 2); rewrite ?Q0, ?Q1, ?Q2; lra.
Qed.
Theorem C48_polygon_quaternion_refuted : exists p' c c',
  (exists a b, pg_add (H := Rnum 0) 3 (pg_default (H := Rnum 0) 3) 0 tri0 0 = Ret (true, a) /\ pg_add (H := Rnum 0) 3 a 1 tri1 0 = Ret (true, b) /\ pg_add (H := Rnum 0) 3 b 2 tri2 0 = Ret (true, tri3d)) /\
  unit_quat qz /\ pg_rotate_corner_q (H := Rnum 0) tri3d qz 1 = Ret p' /\
  pg_corner (H := Rnum 0) 3 tri3d 1 = Ret c /\ pg_corner (H := Rnum 0) 3 p' 1 = Ret c' /\ co c 0 = 1 /\ co c' 0 = - (7 / 25).
Proof.
  destruct (convert_def 0 3 (pplane tri3d) (mkC [1; 0] true)) as (c & C & _ & P). { split; [reflexivity|]. split; discriminate. }
  assert (M : exists p', pg_rotate_corner_q (H := Rnum 0) tri3d qz 1 = Ret p') by (eexists; reflexivity). destruct M as [p' M].
  assert (PM : pg_moved 0 3 (turned_q qz (co (porigin (pplane tri3d)))) tri3d p').
  { apply C48_polygon_quaternion_partial; [apply qz_unit|reflexivity|apply exact_pair_0|apply exact_pair_0|intros _; reflexivity|left; eauto]. }
  destruct PM as [_ PM]. destruct (PM 1%nat c) as (c' & C' & P' & _); [exact C|].
  exists p', c, c'. split; [apply tri_built|]. split; [apply qz_unit|]. split; auto. split; [exact C|]. split; auto. split; [rewrite (P 0%nat) by lia; unfold plane_at, tri3d, tri0, tri1, tri2, co; cbn [el nth porigin pax0 pax1 valid pplane]; lra|].
  rewrite (P' 0%nat) by lia. rewrite turned_q_matrix by (auto; apply qz_unit). unfold mapply. cbn [Rsum]. rewrite (P 0%nat), (P 1%nat), (P 2%nat) by lia.
  unfold ham_matrix, q4, plane_at, tri3d, tri0, tri1, tri2, qz, co. cbn [hw hx hy hz qw qv el nth porigin pax0 pax1 valid pplane]. lra.
Qed.

(** The hypotheses hold: a quarter turn of the plane, a quaternion of space, the triangle above. *)
Definition quarter : rotmatrix R := mkM [[0; 1]; [-1; 0]] false true 1.
Example C48_example : orthogonal 2 (ent quarter) /\ mvalid quarter = true /\ unit_quat qz /\ exact_turn 0 qz tri1 tri2 /\ plane_good (pplane tri3d) /\
  (exists c, pg_corner (H := Rnum 0) 3 tri3d 2 = Ret c /\ valid c = true) /\ (exists c, pg_center (H := Rnum 0) 3 tri3d = Ret c /\ valid c = true) /\
  box_valid (mkB tri0 tri1) = true /\ dims 3 tri2 /\ co (point_rotate (H := Rnum 0) 2 (mkC [3; 4] true) quarter (mkC [1; 1] true)) 0 = -2.
Proof.
  split; [intros i j Hi Hj; destruct i as [|[|i]]; [| |lia]; destruct j as [|[|j]]; try lia; vm_compute; ring|]. split; [reflexivity|]. split; [apply qz_unit|]. split; [apply exact_turn_0|]. split; [intros _; reflexivity|].
  split; [eexists; split; reflexivity|]. split; [eexists; split; reflexivity|]. split; [reflexivity|]. split; [reflexivity|]. vm_compute. lra.
Qed.
Print Assumptions C48_rigid.
Print Assumptions C48_segment_shift.
Print Assumptions C48_segment_rotate.
Print Assumptions C48_segment_quaternion.
Print Assumptions C48_ball.
Print Assumptions C48_ball_quaternion.
Print Assumptions C48_box.
Print Assumptions C48_rotbox_shift.
Print Assumptions C48_rotbox_rotate.
Print Assumptions C48_rotbox_quaternion.
Print Assumptions C48_list_shift.
Print Assumptions C48_list_rotate.
Print Assumptions C48_polygon_center.
Print Assumptions C48_polygon_shift.
Print Assumptions C48_polygon_rotate.
Print Assumptions C48_polygon_quaternion_point.
Print Assumptions C48_polygon_quaternion_partial.
Print Assumptions C48_polygon_quaternion_refuted.
