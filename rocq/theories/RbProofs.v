(** Rotated boxes in their own frame: proofs. *)
From Coq Require Import ZArith NArith Reals Bool List Lia Lra Psatz.
From Flocq Require Import Core.Raux.
From Verif Require Import Base Scalar ConstModel VecModel RotModel QuatModel ShapeModel IntersectModel RSpec VecSpec RotSpec ShapeSpec RLib MatLib OrdLib VecProofs VecProofs2 VecProofs3 VecProofs4 RotProofs2 RotProofs3 ShapeProofs ShapeProofs2 ShapeProofs3 BallProofs SphereProofs SegProofs SegProofs2 SegProofs3.
Import ListNotations.
Open Scope R_scope.

Section Frame.
Context (eps : Epsilon).
Variable n : nat.
Variable r : rotbox R.
Hypothesis O : orthogonal n (ent (orient r)).
Notation c := (co (corner0 r)).
Notation M := (ent (orient r)).
Notation sz := (co (rsize r)).

(** Coordinates along the edges, and back. *)
Definition edge (x : pt) : pt := mapply n M (fun i => x i - c i).
Definition unedge (y : pt) : pt := fun i => c i + mapply n (mtr M) y i.

Lemma mapply_tr_l x i : (i < n)%nat -> mapply n M (mapply n (mtr M) x) i = x i.
Proof. intros Hi. rewrite <- mapply_mmul. rewrite (mapply_ext n _ delta x x i Hi O) by auto. now apply mapply_delta. Qed.
Lemma mapply_tr_r x i : (i < n)%nat -> mapply n (mtr M) (mapply n M x) i = x i.
Proof. intros Hi. rewrite <- mapply_mmul. rewrite (mapply_ext n _ delta x x i Hi (orthogonal_cols n _ O)) by auto. now apply mapply_delta. Qed.
Lemma edge_ext x y : pteq n x y -> pteq n (edge x) (edge y).
Proof. intros E i Hi. apply mapply_ext; auto; [apply meq_refl|]. intros j Hj. now rewrite E. Qed.
Lemma unedge_ext x y : pteq n x y -> pteq n (unedge x) (unedge y).
Proof. intros E i Hi. unfold unedge. f_equal. apply mapply_ext; auto. apply meq_refl. Qed.
Lemma edge_unedge y : pteq n (edge (unedge y)) y.
Proof.
  intros i Hi. unfold edge. rewrite (mapply_ext n M M _ (mapply n (mtr M) y) i Hi (meq_refl n M)); [now apply mapply_tr_l|]. intros j Hj. unfold unedge. ring.
Qed.
Lemma unedge_edge x : pteq n (unedge (edge x)) x.
Proof. intros i Hi. unfold unedge, edge. rewrite mapply_tr_r by auto. ring. Qed.
Lemma unedge_sum y i : unedge y i = c i + Rsum n (fun k => y k * M k i).
Proof. unfold unedge, mapply, mtr. f_equal. apply Rsum_ext. intros. ring. Qed.
Lemma edge_of x y : pteq n x (fun i => c i + Rsum n (fun k => y k * M k i)) -> pteq n (edge x) y.
Proof.
  intros E i Hi. rewrite (edge_ext x (unedge y)); auto; [now apply edge_unedge|]. intros j Hj. rewrite unedge_sum. now apply E.
Qed.
Lemma of_edge x : pteq n x (fun i => c i + Rsum n (fun k => edge x k * M k i)).
Proof. intros i Hi. cbn beta. rewrite <- unedge_sum. symmetry. now apply unedge_edge. Qed.

Lemma near_edge t x : near_rotbox n t r x <-> forall k, (k < n)%nat -> Rmin 0 (sz k) - t <= edge x k <= Rmax 0 (sz k) + t.
Proof.
  split.
  - intros (y & Y & E) k Hk. rewrite (edge_of x y E) by auto. auto.
  - intros E. exists (edge x). split; auto. apply of_edge.
Qed.
Lemma in_edge x : in_rotbox n r x <-> forall k, (k < n)%nat -> Rmin 0 (sz k) <= edge x k <= Rmax 0 (sz k).
Proof.
  split.
  - intros (s & S & E) k Hk. rewrite (edge_of x (fun k => s k * sz k)) by auto. specialize (S k Hk). unfold Rmin, Rmax. destruct (Rle_dec 0 (sz k)); nra.
  - intros E. exists (fun k => if Req_EM_T (sz k) 0 then 0 else edge x k / sz k). split.
    + intros k Hk. specialize (E k Hk). destruct (Req_EM_T (sz k) 0) as [Z|Z]; [lra|]. unfold Rmin, Rmax in E. destruct (Rle_dec 0 (sz k)).
      * split; [apply Rmult_le_pos; [lra|left; apply Rinv_0_lt_compat; lra]|apply div_le_1; lra].
      * replace (edge x k / sz k) with ((- edge x k) / (- sz k)) by (field; lra). split; [apply Rmult_le_pos; [lra|left; apply Rinv_0_lt_compat; lra]|apply div_le_1; lra].
    + intros i Hi. rewrite (of_edge x) by auto. unfold rb_at. f_equal. apply Rsum_ext. intros k Hk. specialize (E k Hk).
      destruct (Req_EM_T (sz k) 0) as [Z|Z]; [|field; auto]. rewrite Z in *. unfold Rmin, Rmax in E. destruct (Rle_dec 0 0); [|lra].
      replace (edge x k) with 0 by lra. ring.
Qed.
Lemma in_edge_open x : rb_thick n r -> (in_rotbox_open n r x <-> forall k, (k < n)%nat -> Rmin 0 (sz k) < edge x k < Rmax 0 (sz k)).
Proof.
  intros T. split.
  - intros (s & S & E) k Hk. rewrite (edge_of x (fun k => s k * sz k)) by auto. specialize (S k Hk). specialize (T k Hk). unfold Rmin, Rmax. destruct (Rle_dec 0 (sz k)); nra.
  - intros E. exists (fun k => edge x k / sz k). split.
    + intros k Hk. specialize (E k Hk). specialize (T k Hk). unfold Rmin, Rmax in E. destruct (Rle_dec 0 (sz k)).
      * split; [apply Rdiv_lt_0_compat; lra|apply div_lt_1; lra].
      * replace (edge x k / sz k) with ((- edge x k) / (- sz k)) by (field; lra). split; [apply Rdiv_lt_0_compat; lra|apply div_lt_1; lra].
    + intros i Hi. rewrite (of_edge x) by auto. unfold rb_at. f_equal. apply Rsum_ext. intros k Hk. field. now apply T.
Qed.

(** ** Points *)
Lemma prod_inv_edge (p : point R) i : (i < n)%nat -> co (prod_inv_vm n (vec_sub n p (corner0 r)) (orient r)) i = edge (co p) i.
Proof. intros Hi. unfold prod_inv_vm. rewrite prod_mv_co by auto. apply mapply_ext; auto; [apply meq_refl|]. intros j Hj. now rewrite sub_co. Qed.
Lemma rb_point_edge p : i_rb_point n r p false = true <-> forall k, (k < n)%nat -> Rmin 0 (sz k) - eps <= edge (co p) k <= Rmax 0 (sz k) + eps.
Proof.
  unfold i_rb_point. cbv zeta. rewrite all_below_iff. split; intros E i Hi; specialize (E i Hi); rewrite !at_co in *; unfold Rmin, Rmax in *;
    rewrite prod_inv_edge in * by auto; cbn [nltb Rnum n0 nofZ] in *; (destruct (Rlt_bool (sz i) 0) eqn:L; [apply Rltb_iff in L|apply Rltb_false in L]); destruct (Rle_dec 0 (sz i)); try lra.
  - apply neg_or in E. rewrite less_false, greater_false in E. lra.
  - apply neg_or in E. rewrite less_false, greater_false in E. lra.
  - apply neg_or. rewrite less_false, greater_false. lra.
  - apply neg_or. rewrite less_false, greater_false. lra.
Qed.
Lemma rb_point_edge_proper p : i_rb_point n r p true = true <-> forall k, (k < n)%nat -> Rmin 0 (sz k) < edge (co p) k < Rmax 0 (sz k).
Proof.
  unfold i_rb_point. cbv zeta. rewrite all_below_iff. split; intros E i Hi; specialize (E i Hi); rewrite !at_co in *; unfold Rmin, Rmax in *;
    rewrite prod_inv_edge in * by auto; cbn [nltb Rnum n0 nofZ] in *; (destruct (Rlt_bool (sz i) 0) eqn:L; [apply Rltb_iff in L|apply Rltb_false in L]); destruct (Rle_dec 0 (sz i)); try lra.
  - apply neg_or in E. rewrite less_proper, greater_proper in E. lra.
  - apply neg_or in E. rewrite less_proper, greater_proper in E. lra.
  - apply neg_or. rewrite less_proper, greater_proper. lra.
  - apply neg_or. rewrite less_proper, greater_proper. lra.
Qed.
Lemma rb_point p : i_rb_point n r p false = true <-> near_rotbox n eps r (co p).
Proof. rewrite rb_point_edge, near_edge. reflexivity. Qed.
Lemma rb_point_proper p : rb_thick n r -> (i_rb_point n r p true = true <-> in_rotbox_open n r (co p)).
Proof. intros T. rewrite rb_point_edge_proper, in_edge_open by auto. reflexivity. Qed.
Lemma rb_point_flat p : ~ rb_thick n r -> i_rb_point n r p true = false.
Proof.
  intros T. apply not_true_iff_false. rewrite rb_point_edge_proper. intros E. apply T. intros k Hk Z. specialize (E k Hk). rewrite Z in E. unfold Rmin, Rmax in E. destruct (Rle_dec 0 0); lra.
Qed.

(** ** The own frame *)
(** Position x seen in the frame where the box is an axis box with the same base corner. *)
Definition frame (x : pt) : pt := fun i => c i + edge x i.
Definition unframe (y : pt) : pt := unedge (fun i => y i - c i).
Lemma frame_ext x y : pteq n x y -> pteq n (frame x) (frame y).
Proof. intros E i Hi. unfold frame. f_equal. now apply edge_ext. Qed.
Lemma frame_unframe y : pteq n (frame (unframe y)) y.
Proof. intros i Hi. unfold frame, unframe. rewrite edge_unedge by auto. ring. Qed.
Lemma unframe_frame x : pteq n (unframe (frame x)) x.
Proof. intros i Hi. unfold unframe. rewrite (unedge_ext _ (edge x)); auto; [now apply unedge_edge|]. intros j Hj. unfold frame. ring. Qed.
Lemma frame_dist x y : dist n (frame x) (frame y) = dist n x y.
Proof.
  unfold dist, dist2, norm2. f_equal. rewrite <- (orthogonal_inner n M (fun i => x i - y i) (fun i => x i - y i) O).
  apply inner_ext; intros i Hi; unfold frame, edge;
  transitivity (mapply n M (fun i => x i - c i) i - mapply n M (fun i => y i - c i) i); try ring; rewrite mapply_minus; apply mapply_ext; auto; try apply meq_refl; intros; ring.
Qed.
Lemma own_point_co (p : point R) i : (i < n)%nat -> co (rb_own_point n r p) i = frame (co p) i.
Proof. intros Hi. unfold rb_own_point. rewrite add_co by auto. now rewrite prod_inv_edge. Qed.
Lemma edge_seg (s : segment R) t : pteq n (frame (seg_at s t)) (seg_at (mkS (rb_own_point n r (end1 s)) (rb_own_point n r (end2 s))) t).
Proof.
  intros i Hi. unfold seg_at at 2. cbn [end1 end2]. rewrite !own_point_co by auto. unfold frame, edge, mapply.
  transitivity (c i + ((1 - t) * Rsum n (fun j => M i j * (co (end1 s) j - c j)) + t * Rsum n (fun j => M i j * (co (end2 s) j - c j)))); [|ring].
  rewrite <- !Rsum_scal_l, <- Rsum_plus. f_equal. apply Rsum_ext. intros j Hj. unfold seg_at. ring.
Qed.
Lemma own_box_co i : (i < n)%nat -> co (low (rb_own_box n r)) i = c i + Rmin 0 (sz i) /\ co (high (rb_own_box n r)) i = c i + Rmax 0 (sz i).
Proof.
  intros Hi. unfold rb_own_box. destruct (corners_unordered eps n (corner0 r) (vec_add n (corner0 r) (rsize r))) as (_ & _ & E).
  destruct (E i Hi) as [-> ->]. rewrite add_co by auto. unfold Rmin, Rmax. destruct (Rle_dec 0 (sz i)), (Rle_dec (c i) (c i + sz i)); split; lra.
Qed.
Lemma own_ordered : box_ordered n (rb_own_box n r).
Proof. intros i Hi. destruct (own_box_co i Hi) as [-> ->]. unfold Rmin, Rmax. destruct (Rle_dec 0 (sz i)); lra. Qed.
Lemma own_thick : rb_thick n r <-> box_thick n (rb_own_box n r).
Proof.
  split; intros T i Hi; specialize (T i Hi); [destruct (own_box_co i Hi) as [-> ->]|destruct (own_box_co i Hi) as [A B]; rewrite A, B in T; intros Z; rewrite Z in T];
  unfold Rmin, Rmax in *; [destruct (Rle_dec 0 (sz i))|destruct (Rle_dec 0 0)]; lra.
Qed.
Lemma in_frame x : in_rotbox n r x <-> in_box n (rb_own_box n r) (frame x).
Proof.
  rewrite in_edge. unfold in_box. split; intros E i Hi; specialize (E i Hi); [|pose proof (own_box_co i Hi) as [A B]; rewrite A, B in E; unfold frame in E; lra].
  destruct (own_box_co i Hi) as [-> ->]. unfold frame. lra.
Qed.
Lemma in_frame_open x : rb_thick n r -> (in_rotbox_open n r x <-> in_box_open n (rb_own_box n r) (frame x)).
Proof.
  intros T. rewrite in_edge_open by auto. unfold in_box_open. split; intros E i Hi; specialize (E i Hi); [|pose proof (own_box_co i Hi) as [A B]; rewrite A, B in E; unfold frame in E; lra].
  destruct (own_box_co i Hi) as [-> ->]. unfold frame. lra.
Qed.
Lemma near_frame t x : near_rotbox n t r x <-> near_box n t (rb_own_box n r) (frame x).
Proof.
  rewrite near_edge. unfold near_box. split; intros E i Hi; specialize (E i Hi); [|pose proof (own_box_co i Hi) as [A B]; rewrite A, B in E; unfold frame in E; lra].
  destruct (own_box_co i Hi) as [-> ->]. unfold frame. lra.
Qed.
Lemma near_rb_0 x : near_rotbox n 0 r x <-> in_rotbox n r x.
Proof. rewrite near_edge, in_edge. split; intros E k Hk; specialize (E k Hk); lra. Qed.

(** Transport of common points and inclusions along the frame. *)
Definition respects (A : pt -> Prop) : Prop := forall x y, pteq n x y -> A x -> A y.
Lemma frame_meet (A B A' B' : pt -> Prop) : respects A' -> respects B' -> (forall x, A x <-> A' (frame x)) -> (forall x, B x <-> B' (frame x)) -> (meet A B <-> meet A' B').
Proof.
  intros RA RB EA EB. split.
  - intros (x & X & Y). exists (frame x). split; [now apply EA|now apply EB].
  - intros (y & X & Y). exists (unframe y). split; [apply EA; apply (RA y); auto|apply EB; apply (RB y); auto]; intros i Hi; symmetry; now apply frame_unframe.
Qed.
Lemma frame_incl (A B A' B' : pt -> Prop) : respects A' -> respects B' -> (forall x, A x <-> A' (frame x)) -> (forall x, B x <-> B' (frame x)) -> (incl A B <-> incl A' B').
Proof.
  intros RA RB EA EB. split.
  - intros I y Y. apply (RB (frame (unframe y))); [apply frame_unframe|]. apply EB, I, EA. apply (RA y); auto. intros i Hi. symmetry. now apply frame_unframe.
  - intros I x X. apply EB, I, EA, X.
Qed.
Lemma respects_box b : respects (in_box n b). Proof. intros x y E X i Hi. rewrite <- (E i Hi). auto. Qed.
Lemma respects_box_open b : respects (in_box_open n b). Proof. intros x y E X i Hi. rewrite <- (E i Hi). auto. Qed.
Lemma respects_near b t : respects (near_box n t b). Proof. intros x y E X i Hi. rewrite <- (E i Hi). auto. Qed.
Lemma respects_ball b : respects (in_ball n b). Proof. intros x y E X. unfold in_ball in *. rewrite (dist_ext n _ y (co (center b)) x); auto; intros i Hi; auto. symmetry; auto. Qed.
Lemma respects_ball_open b : respects (in_ball_open n b). Proof. intros x y E X. unfold in_ball_open in *. rewrite (dist_ext n _ y (co (center b)) x); auto; intros i Hi; auto. symmetry; auto. Qed.
Lemma respects_seg s : respects (in_segment n s). Proof. intros x y E (t & Ht & X). exists t. split; auto. intros i Hi. rewrite <- (E i Hi). auto. Qed.
Lemma respects_seg_open s : respects (in_segment_open n s). Proof. intros x y E (t & Ht & X). exists t. split; auto. intros i Hi. rewrite <- (E i Hi). auto. Qed.

(** ** Balls *)
Notation own_ball b := (mkBall (rb_own_point n r (center b)) (radius b)).
Lemma ball_frame b x : in_ball n b x <-> in_ball n (own_ball b) (frame x).
Proof. unfold in_ball. cbn [center radius]. rewrite (dist_ext n (co (rb_own_point n r (center b))) (frame x) (frame (co (center b))) (frame x)); [|intros i Hi; now apply own_point_co|intros i Hi; auto]. rewrite frame_dist. reflexivity. Qed.
Lemma ball_frame_open b x : in_ball_open n b x <-> in_ball_open n (own_ball b) (frame x).
Proof. unfold in_ball_open. cbn [center radius]. rewrite (dist_ext n (co (rb_own_point n r (center b))) (frame x) (frame (co (center b))) (frame x)); [|intros i Hi; now apply own_point_co|intros i Hi; auto]. rewrite frame_dist. reflexivity. Qed.

Lemma rb_ball b : 0 <= radius b -> (i_rb_ball n r b false = true <-> meet (in_ball n b) (in_rotbox n r)) /\ (i_rb_ball n r b true = true <-> meet (in_ball_open n b) (in_rotbox n r)).
Proof.
  intros Hr. unfold i_rb_ball. rewrite make_pos by auto. rewrite (ball_box eps n) by (auto using own_ordered). rewrite (ball_box_proper eps n) by (auto using own_ordered). split; symmetry; apply frame_meet;
  auto using respects_box, respects_ball, respects_ball_open, in_frame, ball_frame, ball_frame_open.
Qed.
Lemma rb_contains_ball b : 0 <= radius b -> (c_rb_ball n r b false = true <-> incl (in_ball n b) (near_rotbox n eps r)) /\ (rb_thick n r -> (c_rb_ball n r b true = true <-> incl (in_ball n b) (in_rotbox_open n r))).
Proof.
  intros Hr. unfold c_rb_ball. rewrite make_pos by auto. rewrite (box_contains_ball eps n) by auto. rewrite (box_contains_ball_proper eps n) by auto. split; [|intros T]; symmetry; apply frame_incl;
  auto using respects_near, respects_box_open, respects_ball, respects_ball_open, near_frame, ball_frame, in_frame_open.
Qed.
Lemma dist2_frame x y : dist2 n (frame x) (frame y) = dist2 n x y.
Proof. rewrite <- !dist_sqr. now rewrite frame_dist. Qed.
Lemma ball_contains_rb b : 0 <= radius b ->
  (c_ball_rb n b r false = true <-> forall x, in_rotbox n r x -> dist2 n (co (center b)) x <= radius b * radius b * (1 + eps)) /\
  (c_ball_rb n b r true = true <-> forall x, in_rotbox n r x -> dist2 n (co (center b)) x < radius b * radius b * (1 + eps)).
Proof.
  intros Hr. unfold c_ball_rb. rewrite make_pos by auto. rewrite (ball_contains_box eps n) by apply own_ordered. rewrite (ball_contains_box_proper eps n) by apply own_ordered. cbn [center radius].
  assert (D : forall y, dist2 n (co (rb_own_point n r (center b))) y = dist2 n (co (center b)) (unframe y)).
  { intros y. rewrite <- (dist2_frame (co (center b)) (unframe y)). apply dist2_ext; intros i Hi; [now apply own_point_co|]. symmetry. now apply frame_unframe. }
  split; split.
  - intros E x X. apply in_frame in X. specialize (E _ X). rewrite D in E. rewrite (dist2_ext n _ (unframe (frame x)) (co (center b)) x) in E; auto; [intros i Hi; auto|apply unframe_frame].
  - intros E y Y. rewrite D. apply E. apply in_frame. apply (respects_box _ y); auto. intros i Hi. symmetry. now apply frame_unframe.
  - intros E x X. apply in_frame in X. specialize (E _ X). rewrite D in E. rewrite (dist2_ext n _ (unframe (frame x)) (co (center b)) x) in E; auto; [intros i Hi; auto|apply unframe_frame].
  - intros E y Y. rewrite D. apply E. apply in_frame. apply (respects_box _ y); auto. intros i Hi. symmetry. now apply frame_unframe.
Qed.

(** ** Segments *)
Notation own_seg s := (mkS (rb_own_point n r (end1 s)) (rb_own_point n r (end2 s))).
Lemma seg_frame s x : in_segment n s x <-> in_segment n (own_seg s) (frame x).
Proof.
  split; intros (t & Ht & E); exists t; (split; [auto|]).
  - intros i Hi. rewrite <- (edge_seg s t i Hi). now apply frame_ext.
  - intros i Hi. rewrite <- (unframe_frame x i Hi), <- (unframe_frame (seg_at s t) i Hi). apply unedge_ext; auto. intros j Hj. rewrite (E j Hj), (edge_seg s t j Hj). reflexivity.
Qed.
Lemma seg_frame_open s x : in_segment_open n s x <-> in_segment_open n (own_seg s) (frame x).
Proof.
  split; intros (t & Ht & E); exists t; (split; [auto|]).
  - intros i Hi. rewrite <- (edge_seg s t i Hi). now apply frame_ext.
  - intros i Hi. rewrite <- (unframe_frame x i Hi), <- (unframe_frame (seg_at s t) i Hi). apply unedge_ext; auto. intros j Hj. rewrite (E j Hj), (edge_seg s t j Hj). reflexivity.
Qed.
Lemma rb_seg s : 0 <= (eps : R) -> (meet (in_segment n s) (in_rotbox n r) -> i_rb_seg n r s false = true) /\ (i_rb_seg n r s false = true -> meet (in_segment n s) (near_rotbox n eps r)) /\
  (rb_thick n r -> (i_rb_seg n r s true = true <-> meet (in_segment_open n s) (in_rotbox_open n r))).
Proof.
  intros He. unfold i_rb_seg. split; [|split].
  - intros Mt. apply seg_box_complete; auto using own_ordered. exact (proj1 (frame_meet _ _ _ _ (respects_seg _) (respects_box _) (seg_frame s) in_frame) Mt).
  - intros E. apply seg_box_sound in E; auto using own_ordered. exact (proj2 (frame_meet _ _ _ _ (respects_seg _) (respects_near _ _) (seg_frame s) (near_frame eps)) E).
  - intros T. rewrite seg_box_proper by apply own_ordered. symmetry. apply frame_meet; auto using respects_box_open, respects_seg_open, in_frame_open, seg_frame_open.
Qed.
Lemma rb_contains_seg s : (c_rb_seg n r s false = true <-> incl (in_segment n s) (near_rotbox n eps r)) /\ (rb_thick n r -> (c_rb_seg n r s true = true <-> incl (in_segment n s) (in_rotbox_open n r))).
Proof.
  unfold c_rb_seg. rewrite (box_contains_seg eps n), (box_contains_seg_proper eps n). split; [|intros T]; symmetry; apply frame_incl;
  auto using respects_near, respects_box_open, respects_seg, near_frame, seg_frame, in_frame_open.
Qed.
Lemma own_seg_ends s : pteq n (co (rb_own_point n r (end1 s))) (co (rb_own_point n r (end2 s))) <-> pteq n (co (end1 s)) (co (end2 s)).
Proof.
  split; intros E i Hi.
  - rewrite <- (unframe_frame (co (end1 s)) i Hi), <- (unframe_frame (co (end2 s)) i Hi). apply unedge_ext; auto. intros j Hj. rewrite <- !own_point_co by auto. now rewrite E.
  - rewrite !own_point_co by auto. now apply frame_ext.
Qed.

(** ** Corners *)
Lemma corner_in k p : rb_corner n r k = Ret p -> in_rotbox n r (co p).
Proof.
  intros E. apply rb_corner_at in E. destruct E as [_ E]. exists (bits k). split; auto. intros j Hj. unfold bits. destruct (N.testbit k (N.of_nat j)); lra.
Qed.
End Frame.

(** A segment contains the box: exact comparisons. *)
Lemma seg_contains_rb n r s : orthogonal n (ent (orient r)) -> (c_seg_rb (H := Rnum 0) n s r false = true <-> incl (in_rotbox n r) (in_segment n s)) /\
  (~ pteq n (co (end1 s)) (co (end2 s)) -> (c_seg_rb (H := Rnum 0) n s r true = true <-> incl (in_rotbox n r) (in_segment_open n s))).
Proof.
  intros O. unfold c_seg_rb. split; [|intros D].
  - transitivity (incl (in_box n (rb_own_box (H := Rnum 0) n r)) (in_segment n (mkS (rb_own_point (H := Rnum 0) n r (end1 s)) (rb_own_point (H := Rnum 0) n r (end2 s))))).
    + apply seg_contains_box. apply (own_ordered 0).
    + symmetry. apply (frame_incl n r O); auto using respects_box, respects_seg; [intros x; now apply (in_frame 0)|intros x; now apply (seg_frame 0)].
  - transitivity (incl (in_box n (rb_own_box (H := Rnum 0) n r)) (in_segment_open n (mkS (rb_own_point (H := Rnum 0) n r (end1 s)) (rb_own_point (H := Rnum 0) n r (end2 s))))).
    + apply seg_contains_box_proper; [|apply (own_ordered 0)]. cbn [end1 end2]. intros E. apply D. now apply (own_seg_ends 0 n r O s).
    + symmetry. apply (frame_incl n r O); auto using respects_box, respects_seg_open; [intros x; now apply (in_frame 0)|intros x; now apply (seg_frame_open 0)].
Qed.
