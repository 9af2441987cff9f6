(** C47: a shape contains itself, but not properly, and Intersect does not depend on the order of
    its arguments. *)
From Coq Require Import ZArith NArith Reals Bool List Lia Lra Psatz SpecFloat.
From Flocq Require Import Core.Raux.
From Verif Require Import Base Scalar ConstModel ConstSpec VecModel RotModel QuatModel ShapeModel IntersectModel RSpec VecSpec RotSpec ShapeSpec RLib MatLib OrdLib B64Lib ConstProofs VecProofs VecProofs4 RotProofs RotProofs3 ShapeProofs ShapeProofs2 ShapeProofs3 BallProofs PropBox PropBall SegProofs SegProofs2 SegProofs3 SegProofs4 PropSeg PropRot RbProofs PropRotBox PropSat.
Import ListNotations.
Open Scope R_scope.

(** * Contains(s, s, proper) *)
Theorem C47_point : forall (eps : Epsilon) n (p : point R), 0 <= (eps : R) -> valid p = true ->
  i_point_point n p p false = true /\ i_point_point n p p true = false.
Proof. intros eps n p He V. unfold i_point_point, same. cbn [negb andb]. split; auto. now apply vec_equal_refl. Qed.

Theorem C47_box : forall (eps : Epsilon) n (b : axisbox R), 0 <= (eps : R) -> (0 < n)%nat ->
  c_box_box n b b false = true /\ c_box_box n b b true = false.
Proof.
  intros eps n b He Hn. unfold c_box_box. split.
  - apply all_below_iff. intros i Hi. rewrite negb_true_iff, orb_false_iff. rewrite (less_false eps), (greater_false eps). unfold epsilon. lra.
  - apply not_true_iff_false. rewrite all_below_iff. intros A. specialize (A 0%nat Hn). rewrite negb_true_iff, orb_false_iff in A. destruct A as [A _].
    apply (less_proper eps) in A. lra.
Qed.

Lemma sqd_same (eps : Epsilon) n (c : coords R) : squared_distance n c c = 0.
Proof.
  pose proof (sqd_nonneg eps n c c) as A. pose proof (sqd_le eps n c c) as B. unfold dist2 in B.
  assert (E : norm2 n (fun i => co c i - co c i) = 0) by (unfold norm2, inner; apply Rsum_zero; intros; ring). lra.
Qed.
Theorem C47_ball : forall (eps : Epsilon) n (b : ball R), 0 <= (eps : R) ->
  c_ball_ball n b b false = true /\ c_ball_ball n b b true = false.
Proof.
  intros eps n b He. unfold c_ball_ball. cbn zeta. split.
  - destruct (less_ _ _ false) eqn:L.
    + exfalso. apply Bool.not_false_iff_true in L. apply L. apply (less_false eps). cbn. unfold epsilon. lra.
    + apply (less_eq_false eps). rewrite (sqd_same eps). cbn. nra.
  - destruct (less_ _ _ true) eqn:L; auto. apply (less_proper eps) in L. cbn in L. lra.
Qed.

Lemma seg_end (eps : Epsilon) n (s : segment R) (e : point R) : 0 <= (eps : R) -> (e = end1 s \/ e = end2 s) ->
  i_seg_point n s e false = true /\ i_seg_point n s e true = false.
Proof.
  intros He E.
  assert (Z : forall i, (i < n)%nat -> co (vec_sub n e e) i = 0) by (intros i Hi; rewrite sub_co by auto; ring).
  assert (D : dot n (vec_sub n (end1 s) e) (vec_sub n (end2 s) e) = 0).
  { rewrite (dot_def eps). destruct (dot_exact_or_zero eps n (vec_sub n (end1 s) e) (vec_sub n (end2 s) e)) as [Q|Q]; rewrite <- (dot_def eps), Q; auto.
    unfold inner. apply Rsum_zero. intros i Hi. destruct E as [->| ->]; rewrite (Z i Hi); ring. }
  assert (M : sqr_mag n (vec_sub n (end1 s) e) * sqr_mag n (vec_sub n (end2 s) e) = 0).
  { rewrite !sqr_mag_norm2. destruct E as [->| ->].
    - replace (norm2 n (co (vec_sub n (end1 s) (end1 s)))) with 0; [ring|]. symmetry. unfold norm2, inner. apply Rsum_zero. intros i Hi. rewrite (Z i Hi). ring.
    - replace (norm2 n (co (vec_sub n (end2 s) (end2 s)))) with 0; [ring|]. symmetry. unfold norm2, inner. apply Rsum_zero. intros i Hi. rewrite (Z i Hi). ring. }
  unfold i_seg_point. cbn zeta. rewrite D. split.
  - replace (greater_ 0 n0 false) with false by (symmetry; apply (greater_false eps); cbn; unfold epsilon; lra).
    cbn [nmul Rnum neps]. rewrite M. replace (0 * 0) with 0 by ring. now apply equal_R_refl.
  - replace (greater_ 0 n0 true) with true; auto. symmetry. apply not_false_iff_true. intros G. apply (greater_proper eps) in G. cbn in G. lra.
Qed.
Theorem C47_segment : forall (eps : Epsilon) n (s : segment R), 0 <= (eps : R) ->
  c_seg_seg n s s false = true /\ c_seg_seg n s s true = false.
Proof.
  intros eps n s He. destruct (seg_end eps n s (end1 s) He (or_introl eq_refl)) as [A B]. destruct (seg_end eps n s (end2 s) He (or_intror eq_refl)) as [C D].
  unfold c_seg_seg. rewrite A, B, C. split; reflexivity.
Qed.

Lemma not_in_own_interior n (r : rotbox R) : (0 < n)%nat -> orthogonal n (ent (orient r)) -> rb_thick n r -> ~ incl (in_rotbox n r) (in_rotbox_open n r).
Proof.
  intros Hn O T I. assert (C : in_rotbox n r (co (corner0 r))).
  { exists (fun _ => 0). split; [intros; lra|]. intros i Hi. unfold rb_at. rewrite Rsum_zero; [ring|]. intros. ring. }
  apply I in C. destruct C as (s & S1 & E).
  assert (Z : forall i, (i < n)%nat -> Rsum n (fun k => s k * co (rsize r) k * ent (orient r) k i) = 0) by (intros i Hi; specialize (E i Hi); unfold rb_at in E; lra).
  assert (Q : Rsum n (fun i => Rsum n (fun k => s k * co (rsize r) k * ent (orient r) k i) * ent (orient r) 0 i) = 0).
  { apply Rsum_zero. intros i Hi. rewrite (Z i Hi). ring. }
  assert (W : Rsum n (fun i => Rsum n (fun k => s k * co (rsize r) k * ent (orient r) k i) * ent (orient r) 0 i) = Rsum n (fun k => s k * co (rsize r) k * delta k 0)).
  { transitivity (Rsum n (fun i => Rsum n (fun k => s k * co (rsize r) k * ent (orient r) k i * ent (orient r) 0%nat i))).
    - apply Rsum_ext. intros i Hi. rewrite <- Rsum_scal_r. apply Rsum_ext. intros. ring.
    - rewrite Rsum_swap. apply Rsum_ext. intros k Hk. rewrite <- (O k 0%nat Hk Hn). unfold mmul, mtr. rewrite <- Rsum_scal_l. apply Rsum_ext. intros. ring. }
  rewrite W in Q. rewrite Rsum_delta_r in Q by auto. pose proof (S1 0%nat Hn). pose proof (T 0%nat Hn). apply Rmult_integral in Q. destruct Q; [lra|auto].
Qed.
Theorem C47_rotbox : forall (eps : Epsilon) n (r : rotbox R) proper res, 0 <= (eps : R) -> (0 < n)%nat -> proper_rotbox n r -> rb_thick n r ->
  c_rb_rb n r r proper = Ret res -> res = negb proper.
Proof.
  intros eps n r proper res He Hn P T E. destruct (C57_contains_rotbox eps n r r proper res He P (fun _ => proj2 P) E) as [A B]. destruct proper.
  - cbn [negb]. apply not_true_iff_false. rewrite (B eq_refl T). apply not_in_own_interior; auto. apply P.
  - cbn [negb]. apply (A eq_refl). intros x (s & S1 & E'). exists (fun k => s k * co (rsize r) k). split; [|exact E'].
    intros k Hk. pose proof (S1 k Hk) as S2. pose proof (Rmin_l 0 (co (rsize r) k)). pose proof (Rmin_r 0 (co (rsize r) k)). pose proof (Rmax_l 0 (co (rsize r) k)). pose proof (Rmax_r 0 (co (rsize r) k)).
    destruct (Rle_or_lt 0 (co (rsize r) k)); nra.
Qed.
(** In the plane Contains(r, r) always returns. *)
Theorem C47_rotbox_2d : forall (eps : Epsilon) (r : rotbox R) proper, 0 <= (eps : R) -> proper_rotbox 2 r -> rb_thick 2 r ->
  c_rb_rb 2 r r proper = Ret (negb proper).
Proof.
  intros eps r proper He P T.
  destruct (C25_product_defined_2d eps (orient r) (rot_inverse 2 (orient r)) (fun _ => proj2 P)) as (a & _ & _ & _ & E & _).
  { apply (inverse_orth eps 2). intros _. apply P. }
  assert (X : exists res, c_rb_rb 2 r r proper = Ret res).
  { unfold c_rb_rb, rb_rotate_point. rewrite E. cbn [obind]. eexists. reflexivity. }
  destruct X as [res X]. rewrite X. f_equal. apply (C47_rotbox eps 2 r proper res); auto.
Qed.

(** * Doubles *)
Lemma sub_same_b64 x : finite x -> SFsub prec64 emax64 x x = S754_zero false.
Proof.
  intros F. destruct x as [[]| | |s m e]; try discriminate; try reflexivity. unfold SFsub. rewrite Z.sub_diag. reflexivity.
Qed.
Lemma leb_same_b64 x : finite x -> SFleb x x = true.
Proof.
  intros F. unfold SFleb. destruct x as [[]| | |[] m e]; try discriminate; try reflexivity; cbn; rewrite Z.compare_refl, Pos.compare_cont_refl; reflexivity.
Qed.
Theorem C47_box_double : forall (m : libm) n (b : axisbox spec_float), (0 < n)%nat ->
  (forall i, (i < n)%nat -> finite (at_ (H := B64 m) (low b) i) /\ finite (at_ (H := B64 m) (high b) i)) ->
  c_box_box (H := B64 m) n b b false = true /\ c_box_box (H := B64 m) n b b true = false.
Proof.
  intros m n b Hn F. unfold c_box_box, less_, greater_. cbn [nltb nleb nsub neps B64]. split.
  - apply all_below_iff. intros i Hi. destruct (F i Hi) as [L Hg]. rewrite (sub_same_b64 _ L), (sub_same_b64 _ Hg). reflexivity.
  - apply not_true_iff_false. rewrite all_below_iff. intros A. specialize (A 0%nat Hn). destruct (F 0%nat Hn) as [L _]. rewrite (leb_same_b64 _ L) in A. discriminate.
Qed.
Theorem C47_ball_double : forall (m : libm) n (b : ball spec_float),
  (forall i, (i < n)%nat -> finite (at_ (H := B64 m) (center b) i)) -> finite (radius b) ->
  c_ball_ball (H := B64 m) n b b false = true /\ c_ball_ball (H := B64 m) n b b true = false.
Proof.
  intros m n b F Fr.
  assert (Z : squared_distance (H := B64 m) n (center b) (center b) = S754_zero false).
  { unfold squared_distance.
    assert (E : nsum (H := B64 m) n (fun i => let diff := nsub (Num := B64 m) (at_ (H := B64 m) (center b) i) (at_ (H := B64 m) (center b) i) in nmul (Num := B64 m) diff diff) = S754_zero false).
    { unfold nsum. cbv zeta. assert (G : forall l, (forall i, In i l -> (i < n)%nat) -> fold_left (fun acc i => nadd (Num := B64 m) acc (nmul (Num := B64 m) (nsub (Num := B64 m) (at_ (H := B64 m) (center b) i) (at_ (H := B64 m) (center b) i)) (nsub (Num := B64 m) (at_ (H := B64 m) (center b) i) (at_ (H := B64 m) (center b) i)))) l (S754_zero false) = S754_zero false).
      { induction l as [|i l IH]; intros Hl; auto. cbn [fold_left]. cbn [nsub nmul nadd B64]. rewrite sub_same_b64 by (apply F, Hl; left; reflexivity). cbn [SFmul SFadd xorb Bool.eqb]. apply IH. intros j Hj. apply Hl. right; auto. }
      apply G. intros i Hi. apply in_seq in Hi. lia. }
    cbv zeta in *. rewrite E. destruct (nleb _ _); reflexivity. }
  unfold c_ball_ball. cbn zeta. rewrite Z. cbn [nsub B64]. rewrite sub_same_b64 by auto. split; reflexivity.
Qed.

Lemma vec_equal_R_sym (eps : Epsilon) n (a b : coords R) e : vec_equal n a b e = vec_equal n b a e.
Proof.
  unfold vec_equal. rewrite (orb_comm (negb (valid b))). destruct (negb (valid a) || negb (valid b)); auto.
  rewrite (arr_sym eps (el b)). cbn zeta. unfold all_below. induction (seq 0 n) as [|i l IH]; [reflexivity|]. cbn [forallb]. rewrite IH. f_equal.
  cbn [nabs nsub Rnum]. rewrite Rabs_minus_sym. reflexivity.
Qed.
(** * Intersect(a, b, proper) == Intersect(b, a, proper)
    For two different types one order is defined by the other one (intersect.h 44-48), so only pairs
    of one type can disagree. *)
Theorem C47_symmetric : forall (eps : Epsilon) n proper,
  (forall p q : point R, i_point_point n p q proper = i_point_point n q p proper) /\
  (forall a b : axisbox R, i_box_box n a b proper = i_box_box n b a proper) /\
  (forall a b : ball R, i_ball_ball n a b proper = i_ball_ball n b a proper).
Proof.
  intros eps n proper. split; [|split; [intros; apply C39_symmetric|intros; apply C42_symmetric]].
  intros p q. unfold i_point_point, same. f_equal. now apply vec_equal_R_sym.
Qed.
Theorem C47_symmetric_double : forall (m : libm) n proper,
  (forall p q : point spec_float, i_point_point (H := B64 m) n p q proper = i_point_point (H := B64 m) n q p proper) /\
  (forall a b : axisbox spec_float, i_box_box (H := B64 m) n a b proper = i_box_box (H := B64 m) n b a proper) /\
  (forall a b : ball spec_float, i_ball_ball (H := B64 m) n a b proper = i_ball_ball (H := B64 m) n b a proper).
Proof.
  intros m n proper. split; [|split; [intros; apply C39_symmetric|intros; apply C42_symmetric]].
  intros p q. unfold i_point_point, same. f_equal. apply vec_equal_b64_sym.
Qed.

Lemma bool_iff_eq a b (P Q : Prop) : (a = true <-> P) -> (b = true <-> Q) -> (P <-> Q) -> a = b.
Proof. intros A B C. destruct a, b; auto; intuition congruence. Qed.
Lemma meet_comm (P Q : pt -> Prop) : meet P Q <-> meet Q P.
Proof. split; intros (x & A & B); exists x; auto. Qed.
(** Rotated boxes: in exact arithmetic, and in the plane with [proper] for every tolerance. *)
Theorem C47_rotbox_symmetric_partial : forall (r1 r2 : rotbox R) res res',
  (proper_rotbox 2 r1 -> proper_rotbox 2 r2 ->
   i_rb_rb2 (H := Rnum 0) r1 r2 false = Ret res -> i_rb_rb2 (H := Rnum 0) r2 r1 false = Ret res' -> res = res') /\
  (forall eps : Epsilon, proper_rotbox 2 r1 -> proper_rotbox 2 r2 -> rb_thick 2 r1 -> rb_thick 2 r2 ->
   i_rb_rb2 r1 r2 true = Ret res -> i_rb_rb2 r2 r1 true = Ret res' -> res = res') /\
  (proper_rotbox 3 r1 -> proper_rotbox 3 r2 ->
   i_rb_rb3 (H := Rnum 0) r1 r2 false = Ret res -> i_rb_rb3 (H := Rnum 0) r2 r1 false = Ret res' -> res = res').
Proof.
  intros r1 r2 res res'. split; [|split].
  - intros P1 P2 E E'. exact (bool_iff_eq _ _ _ _ (C46_rotbox_2d_exact r1 r2 res P1 P2 E) (C46_rotbox_2d_exact r2 r1 res' P2 P1 E') (meet_comm _ _)).
  - intros eps P1 P2 T1 T2 E E'. exact (bool_iff_eq _ _ _ _ (C46_rotbox_2d_proper eps r1 r2 res P1 P2 T1 T2 E) (C46_rotbox_2d_proper eps r2 r1 res' P2 P1 T2 T1 E') (meet_comm _ _)).
  - intros P1 P2 E E'. exact (bool_iff_eq _ _ _ _ (C46_rotbox_3d_exact r1 r2 res P1 P2 E) (C46_rotbox_3d_exact r2 r1 res' P2 P1 E') (meet_comm _ _)).
Qed.
(** Segments: parallel ones only... *)
Theorem C47_segment_symmetric_partial : forall n (s1 s2 : segment R), seg_ok n s1 -> seg_ok n s2 -> parallel_segments n s1 s2 ->
  i_seg_seg (H := Rnum 0) n s1 s2 false = i_seg_seg (H := Rnum 0) n s2 s1 false.
Proof.
  intros n s1 s2 O1 O2 P. assert (P' : parallel_segments n s2 s1). { intros i j Hi Hj. pose proof (P j i Hj Hi). lra. }
  exact (bool_iff_eq _ _ _ _ (proj1 (C44_segments_partial n s1 s2 O1 O2 P)) (proj1 (C44_segments_partial n s2 s1 O2 O1 P')) (meet_comm _ _)).
Qed.
(** ... because for others the order of the arguments matters. *)
Theorem C47_segment_symmetric_refuted : exists s1 s2 : segment R, seg_ok 2 s1 /\ seg_ok 2 s2 /\
  i_seg_seg (H := Rnum 0) 2 s1 s2 false <> i_seg_seg (H := Rnum 0) 2 s2 s1 false.
Proof.
  destruct C44_segments_false_positive_refuted as (s1 & s2 & O1 & O2 & _ & A & B). exists s1, s2. rewrite A, B.
  split; [auto|]. split; [auto|discriminate].
Qed.
Example C47_example : (0 < 2)%nat /\ proper_rotbox 2 rb345 /\ rb_thick 2 rb345 /\ proper_rotbox 2 rbflat /\
  (exists res, i_rb_rb2 (H := Rnum 0) rb345 rbflat false = Ret res) /\ (exists res, i_rb_rb2 (H := Rnum 0) rbflat rb345 false = Ret res) /\
  seg_ok 2 sg1 /\ seg_ok 2 sg3 /\ parallel_segments 2 sg1 sg3.
Proof.
  destruct rb345_proper as (P & T & _). split; [lia|]. split; [auto|]. split; [auto|]. split; [apply C46_example_2d|].
  split; [eexists; reflexivity|]. split; [eexists; reflexivity|]. split; [apply C44_segments_example|]. split; [apply C44_segments_example|apply C44_segments_example].
Qed.
Print Assumptions C47_point.
Print Assumptions C47_box.
Print Assumptions C47_ball.
Print Assumptions C47_segment.
Print Assumptions C47_rotbox.
Print Assumptions C47_rotbox_2d.
Print Assumptions C47_box_double.
Print Assumptions C47_ball_double.
Print Assumptions C47_symmetric.
Print Assumptions C47_symmetric_double.
Print Assumptions C47_rotbox_symmetric_partial.
Print Assumptions C47_segment_symmetric_partial.
Print Assumptions C47_segment_symmetric_refuted.
