(** Rigid motions, and how the motion functions of each shape act. *)
From Coq Require Import ZArith NArith Reals Bool List Lia Lra Psatz.
From Flocq Require Import Core.Raux.
From Verif Require Import Base Scalar ConstModel VecModel RotModel QuatModel ShapeModel IntersectModel PolyModel RSpec VecSpec RotSpec QuatSpec ShapeSpec MotionSpec RLib MatLib OrdLib VecProofs VecProofs2 VecProofs3 VecProofs4 RotProofs2 RotProofs3 QuatProofs QuatProofs4 QuatProofs5 ShapeProofs ShapeProofs2 ShapeProofs3 BallProofs SphereProofs SegProofs SegProofs2 SegProofs3 RbProofs RbProofs2.
Import ListNotations.
Open Scope R_scope.

Section Rigid.
Variable n : nat.
Lemma pteq_refl x : pteq n x x. Proof. now intros i Hi. Qed.
Lemma pteq_sym x y : pteq n x y -> pteq n y x. Proof. intros E i Hi. now rewrite E. Qed.
Lemma pteq_trans x y z : pteq n x y -> pteq n y z -> pteq n x z. Proof. intros E F i Hi. now rewrite E, F. Qed.
Lemma rigid_shifted v : rigid n (shifted v).
Proof.
  exists delta, v. split; [apply orthogonal_delta|]. intros x i Hi. unfold shifted. rewrite (Rsum_delta_r n x i Hi). ring.
Qed.
Lemma rigid_turned m p : orthogonal n (ent m) -> rigid n (turned n m p).
Proof.
  intros O. exists (ent m), (fun i => p i - Rsum n (fun j => p j * ent m j i)). split; auto. intros x i Hi. unfold turned.
  rewrite (Rsum_ext n _ (fun j => x j * ent m j i - p j * ent m j i)) by (intros; ring). rewrite Rsum_minus. ring.
Qed.
Lemma rigid_ext f x y : rigid n f -> pteq n x y -> pteq n (f x) (f y).
Proof. intros (A & c & O & F) E i Hi. rewrite !(F _ i Hi). f_equal. apply Rsum_ext. intros j Hj. now rewrite E. Qed.
Lemma rigid_comb f x y t : rigid n f -> pteq n (f (fun i => (1 - t) * x i + t * y i)) (fun i => (1 - t) * f x i + t * f y i).
Proof.
  intros (A & c & O & F) i Hi. rewrite !(F _ i Hi). rewrite (Rsum_ext n _ (fun j => (1 - t) * (x j * A j i) + t * (y j * A j i))) by (intros; ring).
  rewrite Rsum_plus, !Rsum_scal_l. ring.
Qed.
Lemma rigid_isometry f : rigid n f -> isometry n f.
Proof.
  intros (A & c & O & F) x y. unfold dist. f_equal. rewrite (SphereProofs.dist2_ext n _ _ _ _ (F x) (F y)). unfold dist2.
  transitivity (norm2 n (mapply n (mtr A) (fun i => x i - y i))).
  - unfold norm2. apply inner_ext; intros i Hi; unfold mapply, mtr; rewrite (Rsum_ext n (fun j => A j i * (x j - y j)) (fun j => x j * A j i - y j * A j i)) by (intros; ring); rewrite Rsum_minus; ring.
  - unfold norm2. apply orthogonal_inner. now apply orthogonal_tr.
Qed.
Lemma rigid_onto f y : rigid n f -> exists x, pteq n y (f x).
Proof.
  intros (A & c & O & F). exists (fun j => mapply n A (fun i => y i - c i) j). intros i Hi. rewrite (F _ i Hi).
  pose proof (mapply_mmul n (mtr A) A (fun k => y k - c k) i) as M.
  assert (Ot : meq n (mmul n (mtr A) A) delta) by (intros a b Ha Hb; exact (orthogonal_tr n A O a b Ha Hb)).
  rewrite (Rsum_ext n _ (fun j => mtr A i j * mapply n A (fun k => y k - c k) j)) by (intros; unfold mtr; ring).
  change (y i = c i + mapply n (mtr A) (mapply n A (fun k => y k - c k)) i).
  rewrite <- M. rewrite (mapply_ext n _ delta _ (fun k => y k - c k) i Hi Ot) by auto. rewrite mapply_delta by auto. ring.
Qed.
(** Shapes *)
Lemma seg_image f (s s' : segment R) : rigid n f -> pteq n (co (end1 s')) (f (co (end1 s))) -> pteq n (co (end2 s')) (f (co (end2 s))) -> seg_moved n f s s'.
Proof.
  intros Rf E1 E2. split; [intros i; unfold seg_corner; destruct (i =? 0)%N; auto|].
  assert (P : forall t, pteq n (seg_at s' t) (f (seg_at s t))).
  { intros t i Hi. unfold seg_at at 1. rewrite (E1 i Hi), (E2 i Hi). symmetry. exact (rigid_comb f (co (end1 s)) (co (end2 s)) t Rf i Hi). }
  intros y. split.
  - intros (t & T & E). exists (seg_at s t). split; [exists t; split; auto; apply pteq_refl|]. eapply pteq_trans; eauto.
  - intros (x & (t & T & E) & F). exists t. split; auto. eapply pteq_trans; [exact F|]. eapply pteq_trans; [apply rigid_ext; eauto|]. apply pteq_sym, P.
Qed.
Lemma dist_pteq a b c d : pteq n a c -> pteq n b d -> dist n a b = dist n c d.
Proof. intros E F. unfold dist. f_equal. now apply SphereProofs.dist2_ext. Qed.
Lemma ball_image f (b b' : ball R) : rigid n f -> pteq n (co (center b')) (f (co (center b))) -> radius b' = radius b -> ball_moved n f b b'.
Proof.
  intros Rf Ec Er. split; auto. split; auto. intros y. unfold in_ball, image. rewrite Er. split.
  - intros D. destruct (rigid_onto f y Rf) as [x X]. exists x. split; auto. rewrite <- (rigid_isometry f Rf). now rewrite <- (dist_pteq _ _ _ _ Ec X).
  - intros (x & D & X). rewrite (dist_pteq _ _ _ _ Ec X). now rewrite (rigid_isometry f Rf).
Qed.
Lemma rb_image (eps : Epsilon) f (r r' : rotbox R) : rigid n f -> (forall s, pteq n (rb_at n r' s) (f (rb_at n r s))) -> rb_moved eps n f r r'.
Proof.
  intros Rf P. split.
  - intros k c C. destruct (rb_corner_at eps n r k c C) as [Hk E]. destruct (rb_corner_defined eps n r' k Hk) as [c' C']. exists c'. split; auto.
    destruct (rb_corner_at eps n r' k c' C') as [_ E']. eapply pteq_trans; [exact E'|]. eapply pteq_trans; [apply P|]. apply rigid_ext; auto. now apply pteq_sym.
  - intros y. split.
    + intros (s & S & E). exists (rb_at n r s). split; [exists s; split; auto; apply pteq_refl|]. eapply pteq_trans; eauto.
    + intros (x & (s & S & E) & F). exists s. split; auto. eapply pteq_trans; [exact F|]. eapply pteq_trans; [apply rigid_ext; eauto|]. apply pteq_sym, P.
Qed.
End Rigid.

(** Rotation by a quaternion *)
Lemma turned_q_matrix q p x i : (i < 3)%nat -> unit_quat q -> turned_q q p x i = p i + mapply 3 (ham_matrix (q4 q)) (fun j => x j - p j) i.
Proof.
  intros Hi U. unfold turned_q. f_equal. unfold mapply. cbn [Rsum]. unfold unit_quat, hnorm2 in U.
  destruct (q4 q) as [w a b c]. cbn [hw hx hy hz] in U. unfold sandwich, hmul, hconj, pure, ham_matrix.
  assert (K : forall t, (w * w + a * a + b * b + c * c) * t = t) by (intros t; rewrite U; ring).
  pose proof (K (x 0%nat - p 0%nat)). pose proof (K (x 1%nat - p 1%nat)). pose proof (K (x 2%nat - p 2%nat)).
  destruct i as [|[|[|i]]]; [| | |lia]; cbn [hpart hw hx hy hz nth]; lra.
Qed.
Lemma rigid_turned_q q p : unit_quat q -> rigid 3 (turned_q q p).
Proof.
  intros U. pose proof (ham_matrix_orth (q4 q) U) as O. exists (mtr (ham_matrix (q4 q))), (fun i => p i - mapply 3 (ham_matrix (q4 q)) p i). split; [now apply orthogonal_tr|].
  intros x i Hi. rewrite turned_q_matrix by auto. unfold mapply, mtr. cbn [Rsum]. ring.
Qed.
Lemma point_rotate_q_co (eps : Epsilon) (x p : point R) q i : (i < 3)%nat -> unit_quat q -> exact_pair eps (qv q) (vec_sub 3 x p) ->
  co (point_rotate_q x q p) i = turned_q q (co p) (co x) i.
Proof.
  intros Hi U E. unfold point_rotate_q. rewrite add_co by auto. rewrite turned_q_matrix by auto. f_equal. rewrite ham_matrix_acts by auto.
  apply mapply_ext; auto; [apply meq_refl|]. intros j Hj. now apply sub_co.
Qed.
