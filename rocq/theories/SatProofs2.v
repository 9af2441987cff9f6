(** The face tests of rotated and axis boxes. *)
From Coq Require Import ZArith NArith Reals Bool List Lia Lra Psatz.
From Flocq Require Import Core.Raux.
From Verif Require Import Base Scalar ConstModel VecModel RotModel QuatModel ShapeModel IntersectModel RSpec VecSpec RotSpec ShapeSpec RLib MatLib OrdLib VecProofs VecProofs2 VecProofs3 VecProofs4 RotProofs2 RotProofs3 ShapeProofs ShapeProofs2 ShapeProofs3 BallProofs SphereProofs RbProofs RbProofs2 SatProofs.
Import ListNotations.
Open Scope R_scope.

Lemma lo_min m s : lo m (Rmin 0 s) (Rmax 0 s) = Rmin 0 (s * m).
Proof. unfold lo, Rmin, Rmax. destruct (Rle_dec 0 m), (Rle_dec 0 s), (Rle_dec 0 (s * m)); nra. Qed.
Lemma hi_max m s : hi m (Rmin 0 s) (Rmax 0 s) = Rmax 0 (s * m).
Proof. unfold hi, Rmin, Rmax. destruct (Rle_dec 0 m), (Rle_dec 0 s), (Rle_dec 0 (s * m)); nra. Qed.
Lemma lo_shift m l h : l <= h -> m * l + Rmin 0 ((h - l) * m) = lo m l h.
Proof. intros. unfold lo, Rmin. destruct (Rle_dec 0 m), (Rle_dec 0 ((h - l) * m)); nra. Qed.
Lemma hi_shift m l h : l <= h -> m * l + Rmax 0 ((h - l) * m) = hi m l h.
Proof. intros. unfold hi, Rmax. destruct (Rle_dec 0 m), (Rle_dec 0 ((h - l) * m)); nra. Qed.
Lemma lo_le m l h x : l <= x <= h -> lo m l h <= m * x <= hi m l h.
Proof. intros. unfold lo, hi. destruct (Rle_dec 0 m); nra. Qed.
Lemma lo_lt m l h x : m <> 0 -> l < x < h -> lo m l h < m * x < hi m l h.
Proof. intros. unfold lo, hi. destruct (Rle_dec 0 m); nra. Qed.
Lemma Rsum_lt n f g k : (forall i, (i < n)%nat -> f i <= g i) -> (k < n)%nat -> f k < g k -> Rsum n f < Rsum n g.
Proof.
  revert k. induction n as [|n IH]; intros k A Hk B; [lia|]. cbn [Rsum]. destruct (Nat.eq_dec k n) as [->|Ne].
  - apply Rplus_le_lt_compat; auto. apply Rsum_le. intros; apply A; lia.
  - apply Rplus_lt_le_compat; [apply (IH k); auto; lia|]. apply A. lia.
Qed.

Lemma not_all_ex_not_below n (f : nat -> R) : ~ (forall i, (i < n)%nat -> f i = 0) -> exists i, (i < n)%nat /\ f i <> 0.
Proof.
  induction n as [|n IH]; intros A; [exfalso; apply A; lia|]. destruct (Req_dec (f n) 0) as [Z|Z]; [|exists n; auto].
  destruct IH as (i & Hi & Ni); [|exists i; auto]. intros B. apply A. intros i Hi. destruct (Nat.eq_dec i n) as [->|]; auto. apply B. lia.
Qed.

Section Faces.
Context (eps : Epsilon).
Variable n : nat.
Variable r : rotbox R.
Variable b : axisbox R.
Hypothesis V : mvalid (orient r) = true.
Hypothesis O : orthogonal n (ent (orient r)).
Hypothesis Ob : box_ordered n b.
Notation c := (co (corner0 r)).
Notation M := (ent (orient r)).
Notation L := (fun k => Rmin 0 (co (rsize r) k)).
Notation U := (fun k => Rmax 0 (co (rsize r) k)).
Notation l := (fun i => co (low b) i - c i).
Notation h := (fun i => co (high b) i - c i).

Lemma bb_lo i : (i < n)%nat -> co (low (rb_bounding_box n r)) i = c i + Rsum n (fun k => lo (M k i) (L k) (U k)) /\ co (high (rb_bounding_box n r)) i = c i + Rsum n (fun k => hi (M k i) (L k) (U k)).
Proof. intros Hi. destruct (bb_co eps n r i Hi) as [-> ->]. split; f_equal; apply Rsum_ext; intros k Hk; [now rewrite lo_min|now rewrite hi_max]. Qed.
Lemma own_bb_lo k : (k < n)%nat -> co (low (rb_bounding_box n (rb_own_of_box n r b))) k = c k + Rsum n (fun i => lo (M k i) (l i) (h i)) /\
  co (high (rb_bounding_box n (rb_own_of_box n r b))) k = c k + Rsum n (fun i => hi (M k i) (l i) (h i)).
Proof.
  intros Hk. destruct (bb_co eps n (rb_own_of_box n r b) k Hk) as [-> ->]. unfold rb_own_of_box. cbn [corner0 rsize orient].
  rewrite (point_rotate_co eps n) by auto. rewrite (turned_frame eps n r (co (low b)) k Hk). unfold frame, edge, mapply. rewrite !Rplus_assoc, <- !Rsum_plus.
  split; f_equal; apply Rsum_ext; intros i Hi; rewrite sub_co by auto; rewrite (proj2 (inverse_spec eps n (orient r)) i k Hi Hk); unfold mtr;
  pose proof (Ob i Hi); [rewrite <- lo_shift by lra|rewrite <- hi_shift by lra]; do 2 f_equal; f_equal; ring.
Qed.
(** The test as inequalities on the four ends per axis. *)
Lemma faces_cmp : rb_box_faces n r b true = true <->
  (forall i, (i < n)%nat -> cmp true (Rsum n (fun k => lo (M k i) (L k) (U k))) (h i) /\ cmp true (l i) (Rsum n (fun k => hi (M k i) (L k) (U k)))) /\
  (forall k, (k < n)%nat -> cmp true (Rsum n (fun i => lo (M k i) (l i) (h i))) (U k) /\ cmp true (L k) (Rsum n (fun i => hi (M k i) (l i) (h i)))).
Proof.
  unfold rb_box_faces. rewrite andb_true_iff, !box_box_coord_proper. split; intros [A B]; (split; [intros i Hi; specialize (A i Hi)|intros k Hk; specialize (B k Hk)]).
  - destruct (bb_lo i Hi) as [E F]. rewrite E, F in A. cbn. lra.
  - destruct (own_bb_lo k Hk) as [E F]. rewrite E, F in B. destruct (own_box_co eps n r k Hk) as [E' F']. rewrite E', F' in B. cbn. lra.
  - destruct (bb_lo i Hi) as [E F]. rewrite E, F. cbn in A. lra.
  - destruct (own_bb_lo k Hk) as [E F]. rewrite E, F. destruct (own_box_co eps n r k Hk) as [E' F']. rewrite E', F'. cbn in B. lra.
Qed.
Lemma faces_cmp_le : rb_box_faces n r b false = true <->
  (forall i, (i < n)%nat -> Rsum n (fun k => lo (M k i) (L k) (U k)) <= h i + eps /\ l i - eps <= Rsum n (fun k => hi (M k i) (L k) (U k))) /\
  (forall k, (k < n)%nat -> Rsum n (fun i => lo (M k i) (l i) (h i)) <= U k + eps /\ L k - eps <= Rsum n (fun i => hi (M k i) (l i) (h i))).
Proof.
  unfold rb_box_faces. rewrite andb_true_iff, !box_box_coord. split; intros [A B]; (split; [intros i Hi; specialize (A i Hi)|intros k Hk; specialize (B k Hk)]).
  - destruct (bb_lo i Hi) as [E F]. rewrite E, F in A. lra.
  - destruct (own_bb_lo k Hk) as [E F]. rewrite E, F in B. destruct (own_box_co eps n r k Hk) as [E' F']. rewrite E', F' in B. lra.
  - destruct (bb_lo i Hi) as [E F]. rewrite E, F. lra.
  - destruct (own_bb_lo k Hk) as [E F]. rewrite E, F. destruct (own_box_co eps n r k Hk) as [E' F']. rewrite E', F'. lra.
Qed.
(** A common point: no face separates. *)
Lemma faces_meet : 0 <= (eps : R) -> meet (in_rotbox n r) (in_box n b) -> rb_box_faces n r b false = true.
Proof.
  intros He (x & X & Y). rewrite faces_cmp_le. split.
  - intros i Hi. pose proof (bb_contains eps n r x X i Hi) as Z. destruct (bb_lo i Hi) as [E F]. rewrite E, F in Z. specialize (Y i Hi). lra.
  - intros k Hk. pose proof (proj1 (in_edge n r O x) X k Hk) as Xk; clear X; rename Xk into X. unfold edge, mapply in X.
    assert (A : Rsum n (fun i => lo (M k i) (l i) (h i)) <= Rsum n (fun j => M k j * (x j - c j)) <= Rsum n (fun i => hi (M k i) (l i) (h i))).
    { split; apply Rsum_le; intros i Hi; specialize (Y i Hi); apply lo_le; lra. }
    lra.
Qed.
Lemma faces_meet_open : rb_thick n r -> meet (in_rotbox_open n r) (in_box_open n b) -> rb_box_faces n r b true = true.
Proof.
  intros T (x & X & Y). rewrite faces_cmp.
  assert (Row : forall k, (k < n)%nat -> exists i, (i < n)%nat /\ M k i <> 0).
  { intros k Hk. destruct (Req_dec (norm2 n (M k)) 0) as [Z|Z].
    - exfalso. pose proof (O k k Hk Hk) as Q. unfold mmul, mtr in Q. rewrite delta_same in Q. unfold norm2, inner in Z. lra.
    - apply not_all_ex_not_below. intros A. apply Z. unfold norm2, inner. apply Rsum_zero. intros i Hi. rewrite (A i Hi). ring. }
  assert (Col : forall i, (i < n)%nat -> exists k, (k < n)%nat /\ M k i <> 0).
  { intros i Hi. destruct (Req_dec (norm2 n (fun k => M k i)) 0) as [Z|Z].
    - exfalso. pose proof (orthogonal_cols n M O i i Hi Hi) as Q. unfold mmul, mtr in Q. rewrite delta_same in Q. unfold norm2, inner in Z. lra.
    - apply not_all_ex_not_below. intros A. apply Z. unfold norm2, inner. apply Rsum_zero. intros k Hk. rewrite (A k Hk). ring. }
  pose proof (proj1 (in_edge_open n r O x T) X) as Xe. pose proof (of_edge n r O x) as Xs.
  split.
  - intros i Hi. destruct (Col i Hi) as (k & Hk & Nk). specialize (Y i Hi). specialize (Xs i Hi). cbn beta in Xs.
    assert (A : Rsum n (fun k => lo (M k i) (L k) (U k)) < Rsum n (fun k => edge n r x k * M k i) < Rsum n (fun k => hi (M k i) (L k) (U k))).
    { split; apply (Rsum_lt n _ _ k); auto; try (intros j Hj; specialize (Xe j Hj); rewrite (Rmult_comm (edge n r x j)); apply lo_le; lra); specialize (Xe k Hk); rewrite (Rmult_comm (edge n r x k)); apply lo_lt; auto. }
    cbn. lra.
  - intros k Hk. destruct (Row k Hk) as (i & Hi & Ni). specialize (Xe k Hk). unfold edge, mapply in Xe.
    assert (A : Rsum n (fun i => lo (M k i) (l i) (h i)) < Rsum n (fun j => M k j * (x j - c j)) < Rsum n (fun i => hi (M k i) (l i) (h i))).
    { split; apply (Rsum_lt n _ _ i); auto; try (intros j Hj; specialize (Y j Hj); apply lo_le; lra); specialize (Y i Hi); apply lo_lt; auto; lra. }
    cbn. lra.
Qed.
End Faces.

Section Z2.
Let Ez : Epsilon := 0.
Existing Instance Ez.
Variable r : rotbox R.
Variable b : axisbox R.
Hypothesis V : mvalid (orient r) = true.
Hypothesis O : orthogonal 2 (ent (orient r)).

Lemma rb_box2 : box_ordered 2 b -> (i_rb_box2 r b false = true <-> meet (in_rotbox 2 r) (in_box 2 b)).
Proof.
  intros Ob. split; [|intros Mt; apply (faces_meet 0); auto; apply Rle_refl].
  intros E. apply (faces_cmp_le 0 2 r b Ob) in E. destruct E as [A B].
  destruct (sat2 false (ent (orient r)) (fun i => co (low b) i - co (corner0 r) i) (fun i => co (high b) i - co (corner0 r) i) (fun k => Rmin 0 (co (rsize r) k)) (fun k => Rmax 0 (co (rsize r) k))) as (y & Y & Z); auto.
  - intros i Hi. specialize (Ob i Hi). cbn. lra.
  - intros k Hk. cbn. unfold Rmin, Rmax. destruct Rle_dec; lra.
  - intros i Hi. specialize (A i Hi). cbn [cmp]. lra.
  - intros k Hk. specialize (B k Hk). cbn [cmp]. lra.
  - exists (fun i => co (corner0 r) i + y i). split.
    + apply in_edge; auto. intros k Hk. specialize (Z k Hk). cbn [cmp] in Z. unfold edge. rewrite (mapply_ext 2 _ (ent (orient r)) _ y k Hk (meq_refl 2 _)); auto. intros; ring.
    + intros i Hi. specialize (Y i Hi). cbn [cmp] in Y. lra.
Qed.
Lemma rb_box2_proper : rb_thick 2 r -> box_thick 2 b -> (i_rb_box2 r b true = true <-> meet (in_rotbox_open 2 r) (in_box_open 2 b)).
Proof.
  intros T Tb. assert (Ob : box_ordered 2 b) by (intros i Hi; specialize (Tb i Hi); lra).
  split; [|intros Mt; now apply (faces_meet_open 0)].
  intros E. apply (faces_cmp 0 2 r b Ob) in E. destruct E as [A B].
  destruct (sat2 true (ent (orient r)) (fun i => co (low b) i - co (corner0 r) i) (fun i => co (high b) i - co (corner0 r) i) (fun k => Rmin 0 (co (rsize r) k)) (fun k => Rmax 0 (co (rsize r) k))) as (y & Y & Z); auto.
  - intros i Hi. specialize (Tb i Hi). cbn. lra.
  - intros k Hk. cbn. specialize (T k Hk). unfold Rmin, Rmax. destruct Rle_dec; lra.
  - exists (fun i => co (corner0 r) i + y i). split.
    + apply in_edge_open; auto. intros k Hk. specialize (Z k Hk). cbn [cmp] in Z. unfold edge. rewrite (mapply_ext 2 _ (ent (orient r)) _ y k Hk (meq_refl 2 _)); auto. intros; ring.
    + intros i Hi. specialize (Y i Hi). cbn [cmp] in Y. lra.
Qed.
End Z2.
